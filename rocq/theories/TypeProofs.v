(** Lemmas for C11-C14: matching, inference of type parameters, overloads. *)
From Coq Require Import String List Bool PeanoNat Lia.
From Verif Require Import TypeModel TypeSpec.
Import ListNotations.

Lemma forall2_length : forall {A B} (R : A -> B -> Prop) l m, Forall2 R l m -> length l = length m.
Proof. induction 1; cbn; congruence. Qed.

Section Induction.
  Variable P : ty -> Prop.
  Hypothesis Hstruct : forall d n ts, Forall P ts -> P (TStruct d n ts).
  Hypothesis Henum : forall d n ts, Forall P ts -> P (TEnum d n ts).
  Hypothesis Hfun : forall i g ps r, Forall P ps -> P r -> P (TFun i g ps r).
  Hypothesis Hint : P TInt.
  Hypothesis Hbytes : P TBytes.
  Hypothesis Hbool : P TBool.
  Hypothesis Hstring : P TString.
  Hypothesis Hnothing : P TNothing.
  Hypothesis Hpointer : P TPointer.
  Hypothesis Harr : forall e, P e -> P (TArr e).
  Hypothesis Hparam : forall p, P (TParam p).

  Fixpoint ty_induct (t : ty) : P t :=
    let all := fix all (ts : list ty) : Forall P ts :=
      match ts with
      | [] => Forall_nil P
      | a :: ts' => Forall_cons a (ty_induct a) (all ts')
      end in
    match t with
    | TStruct d n ts => Hstruct d n ts (all ts)
    | TEnum d n ts => Henum d n ts (all ts)
    | TFun i g ps r => Hfun i g ps r (all ps) (ty_induct r)
    | TInt => Hint
    | TBytes => Hbytes
    | TBool => Hbool
    | TString => Hstring
    | TNothing => Hnothing
    | TPointer => Hpointer
    | TArr e => Harr e (ty_induct e)
    | TParam p => Hparam p
    end.
End Induction.

(** ** Matching (C11) *)

Fixpoint all_match (ts xs : list ty) : bool :=
  match ts, xs with
  | a :: ts', b :: xs' => if matches a b then all_match ts' xs' else false
  | _, _ => true
  end.

Lemma matches_struct : forall d n ts x, matches (TStruct d n ts) x =
  match x with
  | TStruct _ m xs => if negb (String.eqb n m) || negb (length ts =? length xs) then false else all_match ts xs
  | _ => false
  end.
Proof. reflexivity. Qed.

Lemma matches_enum : forall d n ts x, matches (TEnum d n ts) x =
  match x with
  | TEnum _ m xs => if negb (String.eqb n m) || negb (length ts =? length xs) then false else all_match ts xs
  | _ => false
  end.
Proof. reflexivity. Qed.

Lemma matches_fun : forall i g ps r x, matches (TFun i g ps r) x =
  match x with
  | TFun _ _ qs q => if negb (length qs =? length ps) then false
                     else if all_match ps qs then matches r q else false
  | _ => false
  end.
Proof. reflexivity. Qed.

Lemma all_match_same : forall ts, Forall (fun t => forall x, matches t x = true <-> same t x) ts ->
  forall xs, length ts = length xs -> (all_match ts xs = true <-> Forall2 same ts xs).
Proof.
  induction 1 as [|t ts Ht Hts IH]; intros [|x xs] Hl; cbn in Hl; try discriminate.
  - split; constructor.
  - cbn [all_match]. injection Hl as Hl. split.
    + destruct (matches t x) eqn:E; [|discriminate]. intro H. constructor; [apply Ht, E|].
      apply IH; assumption.
    + intro H. inversion H as [|? ? ? ? H1 H2]; subst. apply Ht in H1. rewrite H1. apply IH; assumption.
Qed.

Lemma matches_same : forall t x, matches t x = true <-> same t x.
Proof.
  induction t as [d n ts IH|d n ts IH|i g ps r IH IHr| | | | | | |e IH|p] using ty_induct; intro x.
  - rewrite matches_struct. destruct x; try (split; [discriminate|intro H; inversion H]).
    destruct (String.eqb_spec n name) as [->|N]; cbn [negb orb].
    + destruct (Nat.eqb_spec (length ts) (length types)) as [L|L]; cbn [negb].
      * rewrite (all_match_same ts IH types L). split; intro H; [constructor; exact H|inversion H; assumption].
      * split; [discriminate|]. intro H; inversion H as [? ? ? ? ? H1| | | | | | | | | |]; subst.
        apply forall2_length in H1. contradiction.
    + split; [discriminate|]. intro H; inversion H; congruence.
  - rewrite matches_enum. destruct x; try (split; [discriminate|intro H; inversion H]).
    destruct (String.eqb_spec n name) as [->|N]; cbn [negb orb].
    + destruct (Nat.eqb_spec (length ts) (length types)) as [L|L]; cbn [negb].
      * rewrite (all_match_same ts IH types L). split; intro H; [constructor; exact H|inversion H; assumption].
      * split; [discriminate|]. intro H; inversion H as [|? ? ? ? ? H1| | | | | | | | |]; subst.
        apply forall2_length in H1. contradiction.
    + split; [discriminate|]. intro H; inversion H; congruence.
  - rewrite matches_fun. destruct x; try (split; [discriminate|intro H; inversion H]).
    destruct (Nat.eqb_spec (length params) (length ps)) as [L|L]; cbn [negb].
    + assert (A := all_match_same ps IH params (eq_sym L)). split.
      * destruct (all_match ps params) eqn:E; [|discriminate]. intro H.
        constructor; [apply A; reflexivity|apply IHr; exact H].
      * intro H. inversion H; subst. replace (all_match ps params) with true by (symmetry; apply A; assumption).
        apply IHr. assumption.
    + split; [discriminate|]. intro H; inversion H as [| |? ? ? ? ? ? ? ? H1| | | | | | | |]; subst.
      apply forall2_length in H1. congruence.
  - destruct x; cbn; split; intro H; try discriminate; try (inversion H; fail); constructor.
  - destruct x; cbn; split; intro H; try discriminate; try (inversion H; fail); constructor.
  - destruct x; cbn; split; intro H; try discriminate; try (inversion H; fail); constructor.
  - destruct x; cbn; split; intro H; try discriminate; try (inversion H; fail); constructor.
  - destruct x; cbn; split; intro H; try discriminate; try (inversion H; fail); constructor.
  - destruct x; cbn; split; intro H; try discriminate; try (inversion H; fail); constructor.
  - destruct x; cbn [matches]; try (split; [discriminate|intro H; inversion H]).
    rewrite IH. split; intro H; [constructor; exact H|inversion H; assumption].
  - destruct x; cbn [matches]; try (split; [discriminate|intro H; inversion H]).
    rewrite Nat.eqb_eq. split; intro H; [subst; constructor|inversion H; reflexivity].
Qed.

Lemma same_refl : forall t, same t t.
Proof.
  assert (L : forall ts, Forall (fun t => same t t) ts -> Forall2 same ts ts).
  { induction 1; constructor; auto. }
  induction t using ty_induct; constructor; auto.
Qed.

Lemma same_sym : forall t x, same t x -> same x t.
Proof.
  assert (L : forall ts, Forall (fun t => forall x, same t x -> same x t) ts ->
    forall xs, Forall2 same ts xs -> Forall2 same xs ts).
  { induction 1; intros xs H'; inversion H'; subst; constructor; auto. }
  induction t using ty_induct; intros x Hx; inversion Hx; subst; constructor; auto.
Qed.

Lemma same_trans : forall t x y, same t x -> same x y -> same t y.
Proof.
  assert (L : forall ts, Forall (fun t => forall x y, same t x -> same x y -> same t y) ts ->
    forall xs ys, Forall2 same ts xs -> Forall2 same xs ys -> Forall2 same ts ys).
  { induction 1; intros xs ys H1 H2; inversion H1; subst; inversion H2; subst; constructor; eauto. }
  induction t using ty_induct; intros x y Hx Hy; inversion Hx; subst; inversion Hy; subst; constructor; eauto.
Qed.

Lemma matches_equivalence :
  (forall t, matches t t = true) /\
  (forall t x, matches t x = matches x t) /\
  (forall t x y, matches t x = true -> matches x y = true -> matches t y = true) /\
  (forall t x, matches t x = true <-> same t x).
Proof.
  split; [intro; apply matches_same, same_refl|].
  split; [|split; [intros t x y; rewrite !matches_same; apply same_trans|exact matches_same]].
  intros t x. destruct (matches t x) eqn:E; destruct (matches x t) eqn:F; try reflexivity.
  - apply matches_same, same_sym, matches_same in E. congruence.
  - apply matches_same, same_sym, matches_same in F. congruence.
Qed.

(** ** Inference (C12, C13) *)

(** What a map of bindings does to a type parameter. *)
Definition given (b : binding) (p : nat) : ty :=
  match lookup b p with Some u => u | None => TParam p end.

Definition extends (b b' : binding) : Prop := forall p u, lookup b p = Some u -> lookup b' p = Some u.

Lemma extends_refl : forall b, extends b b.
Proof. intros b p u H; exact H. Qed.

Lemma extends_trans : forall a b c, extends a b -> extends b c -> extends a c.
Proof. intros a b c H1 H2 p u H; apply H2, H1, H. Qed.

Fixpoint all_poly (ts xs : list ty) (b : binding) : bool * binding :=
  match ts, xs with
  | a :: ts', y :: xs' =>
    let '(ok, b1) := poly_match a y b in
    if ok then all_poly ts' xs' b1 else (false, b1)
  | _, _ => (true, b)
  end.

Lemma poly_param : forall t p b, poly_match t (TParam p) b =
  match lookup b p with
  | None => (true, (p, t) :: b)
  | Some u => (matches t u, b)
  end.
Proof. intros t p b. destruct t; reflexivity. Qed.

Lemma poly_struct : forall d n ts x b, (forall p, x <> TParam p) -> poly_match (TStruct d n ts) x b =
  match x with
  | TStruct _ m xs => if negb (String.eqb n m) || negb (length ts =? length xs) then (false, b) else all_poly ts xs b
  | _ => (false, b)
  end.
Proof. intros d n ts x b H. destruct x; try reflexivity. destruct (H id eq_refl). Qed.

Lemma poly_enum : forall d n ts x b, (forall p, x <> TParam p) -> poly_match (TEnum d n ts) x b =
  match x with
  | TEnum _ m xs => if negb (String.eqb n m) || negb (length ts =? length xs) then (false, b) else all_poly ts xs b
  | _ => (false, b)
  end.
Proof. intros d n ts x b H. destruct x; try reflexivity. destruct (H id eq_refl). Qed.

Lemma poly_fun : forall i g ps r x b, (forall p, x <> TParam p) -> poly_match (TFun i g ps r) x b =
  match x with
  | TFun _ _ qs q => if negb (length qs =? length ps) then (false, b)
                     else let '(ok, b1) := all_poly ps qs b in
                          if ok then poly_match r q b1 else (false, b1)
  | _ => (false, b)
  end.
Proof. intros i g ps r x b H. destruct x; try reflexivity. destruct (H id eq_refl). Qed.

(** What one match does: it only adds bindings, of type parameters of [x]; if it
    answers yes all of these are bound, and the bindings make [x] the type [t]. *)
Definition infers (t : ty) : Prop := forall x b ok b', poly_match t x b = (ok, b') ->
  extends b b' /\
  (forall p, lookup b' p <> None -> lookup b p <> None \/ mentions p x) /\
  (ok = true -> (forall p, mentions p x -> lookup b' p <> None) /\
                (forall b'', extends b' b'' -> same t (apply (given b'') x))).

Lemma is_param_dec : forall x : ty, (exists p, x = TParam p) \/ (forall p, x <> TParam p).
Proof. destruct x; try (right; intros p H; discriminate H). left; eauto. Qed.

Lemma infers_param : forall t p b ok b', poly_match t (TParam p) b = (ok, b') ->
  extends b b' /\
  (forall q, lookup b' q <> None -> lookup b q <> None \/ mentions q (TParam p)) /\
  (ok = true -> (forall q, mentions q (TParam p) -> lookup b' q <> None) /\
                (forall b'', extends b' b'' -> same t (apply (given b'') (TParam p)))).
Proof.
  intros t p b ok b' E. rewrite poly_param in E. destruct (lookup b p) as [u|] eqn:L; inversion E; subst; clear E.
  - split; [apply extends_refl|]. split; [intros q H; left; exact H|]. intro M. split.
    + intros q H. inversion H; subst. congruence.
    + intros b'' He. cbn [apply]. unfold given. rewrite (He _ _ L). apply matches_same, M.
  - split; [|split].
    + intros q u H. cbn [lookup]. destruct (Nat.eqb_spec p q); [congruence|exact H].
    + intros q H. cbn [lookup] in H. destruct (Nat.eqb_spec p q); [subst; right; constructor|left; exact H].
    + intros _. split.
      * intros q H. inversion H; subst. cbn [lookup]. rewrite Nat.eqb_refl. discriminate.
      * intros b'' He. cbn [apply]. unfold given.
        rewrite (He p t) by (cbn [lookup]; rewrite Nat.eqb_refl; reflexivity). apply same_refl.
Qed.

Lemma all_infer : forall ts, Forall infers ts -> forall xs b ok b', length ts = length xs ->
  all_poly ts xs b = (ok, b') ->
  extends b b' /\
  (forall p, lookup b' p <> None -> lookup b p <> None \/ Exists (mentions p) xs) /\
  (ok = true -> (forall p, Exists (mentions p) xs -> lookup b' p <> None) /\
                (forall b'', extends b' b'' -> Forall2 same ts (map (apply (given b'')) xs))).
Proof.
  induction 1 as [|t ts Ht Hts IH]; intros [|x xs] b ok b' Hl E; cbn in Hl; try discriminate.
  - cbn [all_poly] in E. inversion E; subst. split; [apply extends_refl|]. split; [auto|].
    intros _. split; [intros p H; inversion H|constructor].
  - cbn [all_poly] in E. injection Hl as Hl. destruct (poly_match t x b) as [ok1 b1] eqn:E1.
    destruct (Ht x b ok1 b1 E1) as [X1 [K1 S1]]. destruct ok1.
    + destruct (IH xs b1 ok b' Hl E) as [X2 [K2 S2]].
      split; [eapply extends_trans; eassumption|]. split.
      * intros p H. destruct (K2 p H) as [H'|H']; [|right; constructor 2; exact H'].
        destruct (K1 p H') as [H''|H'']; [left; exact H''|right; constructor; exact H''].
      * intro O. destruct (S1 eq_refl) as [B1 M1]. destruct (S2 O) as [B2 M2]. split.
        -- intros p H. inversion H as [? ? Hm|? ? Hm]; subst; [|apply B2, Hm].
           specialize (B1 p Hm). destruct (lookup b1 p) as [u|] eqn:Lu; [|congruence].
           rewrite (X2 _ _ Lu). discriminate.
        -- intros b'' He. cbn [map]. constructor; [apply M1; eapply extends_trans; eassumption|apply M2, He].
    + inversion E; subst. split; [exact X1|]. split; [|discriminate].
      intros p H. destruct (K1 p H) as [H'|H']; [left; exact H'|right; constructor; exact H'].
Qed.

Lemma mentions_struct : forall p d n ts, mentions p (TStruct d n ts) <-> Exists (mentions p) ts.
Proof.
  intros. rewrite Exists_exists. split.
  - intro H. inversion H; subst. eauto.
  - intros [t [H1 H2]]. econstructor; eassumption.
Qed.
Lemma mentions_enum : forall p d n ts, mentions p (TEnum d n ts) <-> Exists (mentions p) ts.
Proof.
  intros. rewrite Exists_exists. split.
  - intro H. inversion H; subst. eauto.
  - intros [t [H1 H2]]. econstructor; eassumption.
Qed.
Lemma mentions_fun : forall p i g ps r, mentions p (TFun i g ps r) <-> Exists (mentions p) ps \/ mentions p r.
Proof.
  intros. rewrite Exists_exists. split.
  - intro H. inversion H; subst; eauto.
  - intros [[t [H1 H2]]|H]; [eapply m_arg; eassumption|apply m_ret, H].
Qed.
Lemma mentions_arr : forall p e, mentions p (TArr e) <-> mentions p e.
Proof. intros. split; intro H; [inversion H; subst; assumption|constructor; exact H]. Qed.

Lemma no_change : forall t x b, extends b b /\
  (forall p, lookup b p <> None -> lookup b p <> None \/ mentions p x) /\
  (false = true -> (forall p, mentions p x -> lookup b p <> None) /\
                (forall b'', extends b b'' -> same t (apply (given b'') x))).
Proof. intros. split; [apply extends_refl|]. split; [auto|discriminate]. Qed.

Lemma infer : forall t, infers t.
Proof.
  assert (Base : forall t, (forall x b, (forall p, x <> TParam p) ->
      poly_match t x b = (matches t x, b)) ->
      (forall p x, (forall q, x <> TParam q) -> matches t x = true -> ~ mentions p x) ->
      (forall s x, (forall p, x <> TParam p) -> matches t x = true -> apply s x = x) -> infers t).
  { intros t E0 N A x b ok b' E. destruct (is_param_dec x) as [[p ->]|Hx]; [apply infers_param, E|].
    rewrite (E0 x b Hx) in E. inversion E; subst. split; [apply extends_refl|]. split; [auto|].
    intro M. split; [intros p Hm; destruct (N p x Hx M Hm)|].
    intros b'' _. rewrite (A _ x Hx M). apply matches_same, M. }
  induction t as [d n ts IH|d n ts IH|i g ps r IH IHr| | | | | | |e IH|p] using ty_induct;
    try (apply Base; [intros x b Hx; destruct x; try reflexivity; destruct (Hx id eq_refl)
                     |intros q x Hx M H; destruct x; try discriminate M; try (destruct (Hx id eq_refl)); inversion H
                     |intros s x Hx M; destruct x; try discriminate M; try (destruct (Hx id eq_refl)); reflexivity]).
  - intros x b ok b' E. destruct (is_param_dec x) as [[p ->]|Hx]; [apply infers_param, E|].
    rewrite poly_struct in E by exact Hx.
    destruct x; try (inversion E; subst; apply no_change).
    destruct (String.eqb_spec n name) as [->|N]; cbn [negb orb] in E; [|inversion E; subst; apply no_change].
    destruct (Nat.eqb_spec (length ts) (length types)) as [L|L]; cbn [negb] in E; [|inversion E; subst; apply no_change].
    destruct (all_infer ts IH types b ok b' L E) as [X [K S]].
    split; [exact X|]. split; [intros p H; rewrite mentions_struct; apply K, H|].
    intro O. destruct (S O) as [B M]. split; [intros p H; apply B; rewrite <- mentions_struct; exact H|].
    intros b'' He. cbn [apply]. constructor. apply M, He.
  - intros x b ok b' E. destruct (is_param_dec x) as [[p ->]|Hx]; [apply infers_param, E|].
    rewrite poly_enum in E by exact Hx.
    destruct x; try (inversion E; subst; apply no_change).
    destruct (String.eqb_spec n name) as [->|N]; cbn [negb orb] in E; [|inversion E; subst; apply no_change].
    destruct (Nat.eqb_spec (length ts) (length types)) as [L|L]; cbn [negb] in E; [|inversion E; subst; apply no_change].
    destruct (all_infer ts IH types b ok b' L E) as [X [K S]].
    split; [exact X|]. split; [intros p H; rewrite mentions_enum; apply K, H|].
    intro O. destruct (S O) as [B M]. split; [intros p H; apply B; rewrite <- mentions_enum; exact H|].
    intros b'' He. cbn [apply]. constructor. apply M, He.
  - intros x b ok b' E. destruct (is_param_dec x) as [[p ->]|Hx]; [apply infers_param, E|].
    rewrite poly_fun in E by exact Hx.
    destruct x; try (inversion E; subst; apply no_change).
    destruct (Nat.eqb_spec (length params) (length ps)) as [L|L]; cbn [negb] in E; [|inversion E; subst; apply no_change].
    destruct (all_poly ps params b) as [ok1 b1] eqn:E1.
    destruct (all_infer ps IH params b ok1 b1 (eq_sym L) E1) as [X [K S]]. destruct ok1.
    + destruct (IHr x b1 ok b' E) as [X2 [K2 S2]]. split; [eapply extends_trans; eassumption|]. split.
      * intros p H. rewrite mentions_fun. destruct (K2 p H) as [H'|H']; [|auto].
        destruct (K p H'); auto.
      * intro O. destruct (S eq_refl) as [B1 M1]. destruct (S2 O) as [B2 M2]. split.
        -- intros p H. rewrite mentions_fun in H. destruct H as [H|H]; [|apply B2, H].
           specialize (B1 p H). destruct (lookup b1 p) as [u|] eqn:Lu; [|congruence].
           rewrite (X2 _ _ Lu). discriminate.
        -- intros b'' He. cbn [apply]. constructor; [apply M1; eapply extends_trans; eassumption|apply M2, He].
    + inversion E; subst. split; [exact X|]. split; [|discriminate].
      intros p H. rewrite mentions_fun. destruct (K p H); auto.
  - intros x b ok b' E. destruct (is_param_dec x) as [[p ->]|Hx]; [apply infers_param, E|].
    destruct x; try (inversion E; subst; apply no_change); [|destruct (Hx id eq_refl)].
    destruct (IH x b ok b' E) as [X [K S]].
    split; [exact X|]. split; [intros p H; rewrite mentions_arr; apply K, H|].
    intro O. destruct (S O) as [B M]. split; [intros p H; apply B; rewrite <- mentions_arr; exact H|].
    intros b'' He. cbn [apply]. constructor. apply M, He.
Qed.

(** Completeness: if some choice of types for the type parameters, compatible with
    the bindings so far, makes [x] the type [t], matching answers yes and stays
    compatible. *)
Definition compatible (b : binding) (s : nat -> ty) : Prop :=
  forall p u, lookup b p = Some u -> same u (s p).

Definition finds (t : ty) : Prop := forall x b s, compatible b s -> same t (apply s x) ->
  exists b', poly_match t x b = (true, b') /\ compatible b' s.

Lemma finds_param : forall t p b s, compatible b s -> same t (apply s (TParam p)) ->
  exists b', poly_match t (TParam p) b = (true, b') /\ compatible b' s.
Proof.
  intros t p b s C S. rewrite poly_param. cbn [apply] in S. destruct (lookup b p) as [u|] eqn:L.
  - exists b. split; [|exact C]. f_equal. apply matches_same.
    eapply same_trans; [exact S|]. apply same_sym, (C p u L).
  - exists ((p, t) :: b). split; [reflexivity|]. intros q u H. cbn [lookup] in H.
    destruct (Nat.eqb_spec p q); [|apply C, H]. inversion H; subst. exact S.
Qed.

Lemma all_find : forall ts, Forall finds ts -> forall xs b s, compatible b s ->
  Forall2 same ts (map (apply s) xs) -> exists b', all_poly ts xs b = (true, b') /\ compatible b' s.
Proof.
  induction 1 as [|t ts Ht Hts IH]; intros [|x xs] b s C S; inversion S; subst.
  - exists b. split; [reflexivity|exact C].
  - destruct (Ht x b s C) as [b1 [E1 C1]]; [assumption|].
    destruct (IH xs b1 s C1) as [b2 [E2 C2]]; [assumption|].
    exists b2. split; [|exact C2]. cbn [all_poly]. rewrite E1. exact E2.
Qed.

Lemma find : forall t, finds t.
Proof.
  assert (Base : forall t, (forall x b, (forall p, x <> TParam p) ->
      poly_match t x b = (matches t x, b)) ->
      (forall s x, (forall p, x <> TParam p) -> same t (apply s x) -> same t x) -> finds t).
  { intros t E0 A x b s C S. destruct (is_param_dec x) as [[p ->]|Hx]; [apply finds_param; assumption|].
    exists b. split; [|exact C]. rewrite E0 by exact Hx. f_equal. apply matches_same, (A s x Hx S). }
  induction t as [d n ts IH|d n ts IH|i g ps r IH IHr| | | | | | |e IH|p] using ty_induct;
    try (apply Base; [intros x b Hx; destruct x; try reflexivity; destruct (Hx id eq_refl)
                     |intros s x Hx M; destruct x; try (destruct (Hx id eq_refl)); cbn [apply] in M; inversion M; constructor]).
  - intros x b s C S. destruct (is_param_dec x) as [[p ->]|Hx]; [apply finds_param; assumption|].
    rewrite poly_struct by exact Hx. destruct x; cbn [apply] in S; try (inversion S; fail);
      [|destruct (Hx id eq_refl)].
    inversion S as [? ? ? ? ? H1| | | | | | | | | |]; subst. rewrite String.eqb_refl.
    assert (L := forall2_length _ _ _ H1). rewrite map_length in L. rewrite L, Nat.eqb_refl. cbn [negb orb].
    apply all_find; assumption.
  - intros x b s C S. destruct (is_param_dec x) as [[p ->]|Hx]; [apply finds_param; assumption|].
    rewrite poly_enum by exact Hx. destruct x; cbn [apply] in S; try (inversion S; fail);
      [|destruct (Hx id eq_refl)].
    inversion S as [|? ? ? ? ? H1| | | | | | | | |]; subst. rewrite String.eqb_refl.
    assert (L := forall2_length _ _ _ H1). rewrite map_length in L. rewrite L, Nat.eqb_refl. cbn [negb orb].
    apply all_find; assumption.
  - intros x b s C S. destruct (is_param_dec x) as [[p ->]|Hx]; [apply finds_param; assumption|].
    rewrite poly_fun by exact Hx. destruct x; cbn [apply] in S; try (inversion S; fail);
      [|destruct (Hx id eq_refl)].
    inversion S as [| |? ? ? ? ? ? ? ? H1 H2| | | | | | | |]; subst.
    assert (L := forall2_length _ _ _ H1). rewrite map_length in L. rewrite L, Nat.eqb_refl. cbn [negb].
    destruct (all_find ps IH params b s C H1) as [b1 [E1 C1]]. rewrite E1. apply IHr; assumption.
  - intros x b s C S. destruct (is_param_dec x) as [[p ->]|Hx]; [apply finds_param; assumption|].
    destruct x; cbn [apply] in S; try (inversion S; fail); [|destruct (Hx id eq_refl)].
    inversion S; subst. apply IH; assumption.
Qed.

(** ** Calls (C12, C13, C14) *)

Lemma apply_same : forall s t u, same t u -> same (apply s t) (apply s u).
Proof.
  intro s.
  assert (L : forall ts, Forall (fun t => forall u, same t u -> same (apply s t) (apply s u)) ts ->
    forall us, Forall2 same ts us -> Forall2 same (map (apply s) ts) (map (apply s) us)).
  { induction 1; intros us H'; inversion H'; subst; cbn [map]; constructor; auto. }
  induction t using ty_induct; intros u Hu; inversion Hu; subst; cbn [apply];
    try (constructor; auto; fail). apply same_refl.
Qed.

Lemma apply_id : forall t, apply TParam t = t.
Proof.
  assert (L : forall ts, Forall (fun t => apply TParam t = t) ts -> map (apply TParam) ts = ts).
  { induction 1; cbn [map]; congruence. }
  induction t using ty_induct; cbn [apply]; try reflexivity; try (rewrite L by assumption); congruence.
Qed.

Lemma apply_ext : forall s s' t, (forall p, mentions p t -> s p = s' p) -> apply s t = apply s' t.
Proof.
  intros s s'.
  assert (L : forall ts, Forall (fun t => (forall p, mentions p t -> s p = s' p) -> apply s t = apply s' t) ts ->
    (forall p, Exists (mentions p) ts -> s p = s' p) -> map (apply s) ts = map (apply s') ts).
  { induction 1; intro E; cbn [map]; [reflexivity|]. f_equal.
    - apply H. intros p Hp. apply E. constructor. exact Hp.
    - apply IHForall. intros p Hp. apply E. constructor 2. exact Hp. }
  induction t as [d n ts IH|d n ts IH|i g ps r IH IHr| | | | | | |e IH|p] using ty_induct; intro E; cbn [apply];
    try reflexivity.
  - f_equal. apply L; [exact IH|]. intros p Hp. apply E. rewrite mentions_struct. exact Hp.
  - f_equal. apply L; [exact IH|]. intros p Hp. apply E. rewrite mentions_enum. exact Hp.
  - f_equal; [apply L; [exact IH|]|apply IHr]; intros p Hp; apply E; rewrite mentions_fun; auto.
  - f_equal. apply IH. intros p Hp. apply E. rewrite mentions_arr. exact Hp.
  - apply E. constructor.
Qed.

Definition all_subst (ts : list ty) (b : binding) : list ty :=
  (fix all (ts : list ty) : list ty :=
     match ts with [] => [] | a :: ts' => subst a b :: all ts' end) ts.

Lemma subst_same : forall b t, same (subst t b) (apply (given b) t).
Proof.
  intros [|[p0 t0] b'].
  - intro t. replace (apply (given []) t) with t.
    + destruct t; apply same_refl.
    + symmetry. rewrite <- (apply_id t) at 2. apply apply_ext. reflexivity.
  - set (b := (p0, t0) :: b').
    assert (L : forall ts, Forall (fun t => same (subst t b) (apply (given b) t)) ts ->
      Forall2 same (all_subst ts b) (map (apply (given b)) ts)).
    { induction 1; cbn [map]; constructor; auto. }
    induction t as [d n ts IH|d n ts IH|i g ps r IH IHr| | | | | | |e IH|p] using ty_induct;
      try (cbn; constructor; fail).
    + change (subst (TStruct d n ts) b) with (TStruct 0 n (all_subst ts b)). cbn [apply]. constructor. auto.
    + change (subst (TEnum d n ts) b) with (TEnum 0 n (all_subst ts b)). cbn [apply]. constructor. auto.
    + change (subst (TFun i g ps r) b) with (TFun i [] (all_subst ps b) (subst r b)). cbn [apply]. constructor; auto.
    + change (subst (TArr e) b) with (TArr (subst e b)). cbn [apply]. constructor. auto.
    + change (subst (TParam p) b) with (given b p). apply same_refl.
Qed.

Definition all_unbound (ts : list ty) (b : binding) : list nat :=
  (fix all (ts : list ty) : list nat :=
     match ts with [] => [] | a :: ts' => find_unbound a b ++ all ts' end) ts.

Lemma unbound_shows : forall b t, find_unbound t b = [] <-> forall p, shows p t -> lookup b p <> None.
Proof.
  intro b.
  assert (L : forall ts, Forall (fun t => find_unbound t b = [] <-> forall p, shows p t -> lookup b p <> None) ts ->
    (all_unbound ts b = [] <-> forall p t, In t ts -> shows p t -> lookup b p <> None)).
  { induction 1 as [|t ts Ht Hts IH].
    - split; [intros _ p t []|reflexivity].
    - change (all_unbound (t :: ts) b) with (find_unbound t b ++ all_unbound ts b). split.
      + intro E. apply app_eq_nil in E. destruct E as [E1 E2]. rewrite Ht in E1. rewrite IH in E2.
        intros p u [<-|Hu] Hs; eauto.
      + intro H.
        assert (E1 : find_unbound t b = []) by (apply Ht; intros p Hp; apply (H p t (or_introl eq_refl) Hp)).
        assert (E2 : all_unbound ts b = []) by (apply IH; intros p u Hu Hp; apply (H p u (or_intror Hu) Hp)).
        rewrite E1, E2. reflexivity. }
  induction t as [d n ts IH|d n ts IH|i g ps r IH IHr| | | | | | |e IH|p] using ty_induct;
    try (cbn; split; [intros _ p H; inversion H|reflexivity]).
  - change (find_unbound (TStruct d n ts) b) with (all_unbound ts b). rewrite (L ts IH). split.
    + intros H p Hp. inversion Hp; subst. eauto.
    + intros H p t Ht Hp. apply H. econstructor; eassumption.
  - change (find_unbound (TEnum d n ts) b) with (all_unbound ts b). rewrite (L ts IH). split.
    + intros H p Hp. inversion Hp; subst. eauto.
    + intros H p t Ht Hp. apply H. econstructor; eassumption.
  - cbn [find_unbound]. split.
    + intros H p Hp. inversion Hp as [| | |? ? ? ? Hg|]; subst. intro N.
      assert (In p (filter (fun p => match lookup b p with Some _ => false | None => true end) g)) as F.
      { apply filter_In. rewrite N. auto. }
      rewrite H in F. destruct F.
    + intro H. destruct (filter _ g) as [|p l] eqn:E; [reflexivity|].
      assert (In p (p :: l)) as F by (left; reflexivity). rewrite <- E in F. apply filter_In in F.
      destruct F as [F1 F2]. specialize (H p (s_fun p i g ps r F1)). destruct (lookup b p); [discriminate|congruence].
  - change (find_unbound (TArr e) b) with (find_unbound e b). rewrite IH. split.
    + intros H p Hp. inversion Hp; subst. auto.
    + intros H p Hp. apply H. constructor. exact Hp.
  - cbn [find_unbound]. split.
    + intros H q Hq. inversion Hq; subst. intro N. rewrite N in H. discriminate.
    + intro H. specialize (H p (s_here p)). destruct (lookup b p); [reflexivity|congruence].
Qed.

Lemma choose_settles : forall chain p a, choose chain p = Some a ->
  exists s t pre post, chain = pre ++ (s, t) :: post /\ a = Arg t ((s, t) :: post) /\ same t p.
Proof.
  induction chain as [|[s t] rest IH]; intros p a E; cbn [choose] in E; [discriminate|].
  destruct (matches t p) eqn:M.
  - inversion E; subst. exists s, t, [], rest. split; [reflexivity|]. split; [reflexivity|]. apply matches_same, M.
  - destruct (IH p a E) as [s' [t' [pre [post [-> [-> S]]]]]].
    exists s', t', ((s, t) :: pre), post. auto.
Qed.

Lemma check_args_sound : forall args params args', length args = length params ->
  check_args params args = (None, args') ->
  Forall2 settled args args' /\ Forall2 (fun a p => same (ar_typ a) p) args' params.
Proof.
  induction args as [|a args IH]; intros [|p params] args' L E; cbn in L; try discriminate.
  - inversion E; subst. split; constructor.
  - cbn [check_args] in E. injection L as L. destruct (overloaded a) eqn:O.
    + destruct (choose (ar_chain a) p) as [a'|] eqn:C; [|discriminate].
      destruct (check_args params args) as [e r] eqn:E1. inversion E; subst.
      destruct (IH params r L E1) as [H1 H2].
      destruct (choose_settles _ _ _ C) as [s [t [pre [post [Hc [-> S]]]]]].
      split; constructor; auto. unfold settled. rewrite O. eauto 7.
    + destruct (matches (ar_typ a) p) eqn:M; [|discriminate].
      destruct (check_args params args) as [e r] eqn:E1. inversion E; subst.
      destruct (IH params r L E1) as [H1 H2].
      split; constructor; auto; [unfold settled; rewrite O; reflexivity|apply matches_same, M].
Qed.

Lemma choose_poly_infers : forall chain p b oa b', choose_poly chain p b = (oa, b') ->
  extends b b' /\
  (forall q, lookup b' q <> None -> lookup b q <> None \/ mentions q p) /\
  (forall a, oa = Some a ->
     (exists s t pre post, chain = pre ++ (s, t) :: post /\ a = Arg t ((s, t) :: post)) /\
     (forall q, mentions q p -> lookup b' q <> None) /\
     (forall b'', extends b' b'' -> same (ar_typ a) (apply (given b'') p))).
Proof.
  induction chain as [|[s t] rest IH]; intros p b oa b' E; cbn [choose_poly] in E.
  - inversion E; subst. split; [apply extends_refl|]. split; [auto|]. intros a H; discriminate.
  - destruct (poly_match t p b) as [ok b1] eqn:E1. destruct (infer t p b ok b1 E1) as [X [K S]]. destruct ok.
    + inversion E; subst. split; [exact X|]. split; [exact K|]. intros a H. inversion H; subst.
      destruct (S eq_refl) as [B M]. split; [exists s, t, [], rest; auto|]. split; [exact B|exact M].
    + destruct (IH p b1 oa b' E) as [X2 [K2 S2]]. split; [eapply extends_trans; eassumption|]. split.
      * intros q H. destruct (K2 q H) as [H'|H']; [apply K, H'|auto].
      * intros a H. destruct (S2 a H) as [[s' [t' [pre [post [-> ->]]]]] R]. split; [|exact R].
        exists s', t', ((s, t) :: pre), post. auto.
Qed.

Lemma check_poly_sound : forall args params b e args' b', length args = length params ->
  check_poly_args params args b = (e, args', b') ->
  extends b b' /\
  (forall q, lookup b' q <> None -> lookup b q <> None \/ Exists (mentions q) params) /\
  (e = None ->
     Forall2 settled args args' /\
     (forall q, Exists (mentions q) params -> lookup b' q <> None) /\
     (forall b'', extends b' b'' -> Forall2 (fun a p => same (ar_typ a) (apply (given b'') p)) args' params)).
Proof.
  induction args as [|a args IH]; intros [|p params] b e args' b' L E; cbn in L; try discriminate.
  - inversion E; subst. split; [apply extends_refl|]. split; [auto|]. intros _.
    split; [constructor|]. split; [intros q H; inversion H|constructor].
  - cbn [check_poly_args] in E. injection L as L.
    assert (Step : forall a' b1 e r b2,
      extends b b1 -> (forall q, lookup b1 q <> None -> lookup b q <> None \/ mentions q p) ->
      settled a a' -> (forall q, mentions q p -> lookup b1 q <> None) ->
      (forall b'', extends b1 b'' -> same (ar_typ a') (apply (given b'') p)) ->
      check_poly_args params args b1 = (e, r, b2) ->
      extends b b2 /\
      (forall q, lookup b2 q <> None -> lookup b q <> None \/ Exists (mentions q) (p :: params)) /\
      (e = None -> Forall2 settled (a :: args) (a' :: r) /\
        (forall q, Exists (mentions q) (p :: params) -> lookup b2 q <> None) /\
        (forall b'', extends b2 b'' ->
           Forall2 (fun a p => same (ar_typ a) (apply (given b'') p)) (a' :: r) (p :: params)))).
    { intros a' b1 e1 r b2 X K St B M E2. destruct (IH params b1 e1 r b2 L E2) as [X2 [K2 S2]].
      split; [eapply extends_trans; eassumption|]. split.
      - intros q H. destruct (K2 q H) as [H'|H']; [|right; constructor 2; exact H'].
        destruct (K q H'); [auto|right; constructor; assumption].
      - intro N. destruct (S2 N) as [St2 [B2 M2]]. split; [constructor; assumption|]. split.
        + intros q H. inversion H as [? ? Hm|? ? Hm]; subst; [|apply B2, Hm].
          specialize (B q Hm). destruct (lookup b1 q) as [u|] eqn:Lu; [|congruence].
          rewrite (X2 _ _ Lu). discriminate.
        + intros b'' He. constructor; [apply M; eapply extends_trans; eassumption|apply M2, He]. }
    destruct (overloaded a) eqn:O.
    + destruct (choose_poly (ar_chain a) p b) as [[a'|] b1] eqn:C.
      * destruct (check_poly_args params args b1) as [[e2 r] b2] eqn:E2. inversion E; subst.
        destruct (choose_poly_infers _ _ _ _ _ C) as [X [K S]].
        destruct (S a' eq_refl) as [[s [t [pre [post [Hc ->]]]]] [B M]].
        eapply Step; eauto. unfold settled. rewrite O. eauto 7.
      * inversion E; subst. destruct (choose_poly_infers _ _ _ _ _ C) as [X [K S]].
        split; [exact X|]. split; [|discriminate]. intros q H. destruct (K q H); [auto|right; constructor; assumption].
    + destruct (poly_match (ar_typ a) p b) as [ok b1] eqn:C.
      destruct (infer _ _ _ _ _ C) as [X [K S]]. destruct ok.
      * destruct (check_poly_args params args b1) as [[e2 r] b2] eqn:E2. inversion E; subst.
        destruct (S eq_refl) as [B M]. eapply Step; eauto. unfold settled. rewrite O. reflexivity.
      * inversion E; subst. split; [exact X|]. split; [|discriminate].
        intros q H. destruct (K q H); [auto|right; constructor; assumption].
Qed.

Lemma bind_all_other : forall types explicit b p, ~ In p types ->
  lookup (bind_all types explicit b) p = lookup b p.
Proof.
  induction types as [|q types IH]; intros [|t explicit] b p H; cbn [bind_all]; try reflexivity.
  rewrite IH by (intro; apply H; right; assumption). cbn [lookup].
  destruct (Nat.eqb_spec q p); [|reflexivity]. subst. destruct H. left. reflexivity.
Qed.

Lemma bind_all_lookup : forall types explicit b, NoDup types -> length explicit = length types ->
  Forall2 (fun p t => lookup (bind_all types explicit b) p = Some t) types explicit.
Proof.
  induction types as [|q types IH]; intros [|t explicit] b N L; cbn in L; try discriminate; [constructor|].
  inversion N; subst. injection L as L. constructor.
  - cbn [bind_all]. rewrite bind_all_other by assumption. cbn [lookup]. rewrite Nat.eqb_refl. reflexivity.
  - cbn [bind_all]. apply IH; assumption.
Qed.

Lemma bind_all_in : forall types explicit p, lookup (bind_all types explicit []) p <> None ->
  explicit <> [] /\ In p types.
Proof.
  intros types explicit p H. split.
  - intros ->. apply H. destruct types; reflexivity.
  - destruct (in_dec Nat.eq_dec p types) as [I|I]; [exact I|].
    rewrite bind_all_other in H by exact I. destruct H. reflexivity.
Qed.

Lemma bind_all_compatible : forall types explicit s b, compatible b s ->
  Forall2 (fun p t => same t (s p)) types explicit -> compatible (bind_all types explicit b) s.
Proof.
  induction types as [|q types IH]; intros explicit s b C H; inversion H; subst; cbn [bind_all]; [exact C|].
  apply IH; [|assumption]. intros p u E. cbn [lookup] in E.
  destruct (Nat.eqb_spec q p); [inversion E; subst; assumption|apply C, E].
Qed.

(** What an accepted call means. *)
Lemma accepted : forall i types params ret explicit args r args', NoDup types ->
  match_by_type (TFun i types params ret) explicit args = (Ok r, args') ->
  (explicit = [] \/ length explicit = length types) /\
  Forall2 settled args args' /\
  ((types = [] /\ r = ret /\ Forall2 (fun a p => same (ar_typ a) p) args' params) \/
   (types <> [] /\ exists b, r = subst ret b /\
      Forall2 (fun a p => same (ar_typ a) (apply (given b) p)) args' params /\
      (explicit <> [] -> Forall2 (fun p t => lookup b p = Some t) types explicit) /\
      (forall p, lookup b p <> None <-> determined types params explicit p) /\
      (forall p, shows p ret -> lookup b p <> None))).
Proof.
  intros i types params ret explicit args r args' N E. unfold match_by_type in E.
  destruct (Nat.eqb_spec (length args) (length params)) as [L|L]; cbn [negb] in E; [|discriminate].
  assert (Ex : explicit = [] \/ length explicit = length types).
  { destruct (Nat.eqb_spec (length explicit) 0) as [Z|Z].
    - left. destruct explicit; [reflexivity|discriminate].
    - right. cbn [negb andb] in E. destruct (Nat.eqb_spec (length explicit) (length types)); [assumption|discriminate]. }
  split; [exact Ex|].
  match type of E with (if ?c then _ else _) = _ => destruct c; [discriminate|] end.
  destruct types as [|q types]; cbn [length Nat.eqb] in E.
  - destruct (check_args params args) as [[e|] a'] eqn:C; inversion E; subst.
    destruct (check_args_sound _ _ _ L C) as [H1 H2]. split; [exact H1|]. left. auto.
  - destruct (check_poly_args params args (bind_all (q :: types) explicit [])) as [[[e|] a'] b] eqn:C; [discriminate|].
    destruct (find_unbound ret b) eqn:U; [|discriminate]. inversion E; subst.
    destruct (check_poly_sound _ _ _ _ _ _ L C) as [X [K S]]. destruct (S eq_refl) as [S1 [S2 S3]].
    split; [exact S1|]. right. split; [discriminate|]. exists b. split; [reflexivity|].
    split; [apply S3, extends_refl|].
    assert (B : explicit <> [] -> Forall2 (fun p t => lookup b p = Some t) (q :: types) explicit).
    { intro NE. destruct Ex as [->|Ex]; [congruence|].
      assert (F := bind_all_lookup (q :: types) explicit [] N Ex).
      revert F. generalize (bind_all (q :: types) explicit []) X. intros b0 X0 F.
      clear -X0 F. generalize dependent explicit. generalize (q :: types). intros l explicit F.
      induction F; constructor; auto. }
    split; [exact B|]. split.
    + intro p. split.
      * intro H. destruct (K p H) as [H'|H']; [left; apply bind_all_in in H'; exact H'|right; exact H'].
      * intros [[NE I]|H]; [|apply S2, H].
        specialize (B NE). intro Z. clear -B I Z. induction B; [destruct I|].
        destruct I as [<-|I]; [congruence|auto].
    + apply unbound_shows, U.
Qed.

Lemma call_sound : forall i types params ret explicit args r args', NoDup types ->
  match_by_type (TFun i types params ret) explicit args = (Ok r, args') ->
  exists s : nat -> ty,
    Forall2 settled args args' /\
    Forall2 (fun a p => same (ar_typ a) (apply s p)) args' params /\
    same r (apply s ret) /\
    (explicit <> [] -> Forall2 (fun p t => s p = t) types explicit) /\
    ((forall p, Exists (mentions p) params -> In p types) -> forall p, ~ In p types -> s p = TParam p).
Proof.
  intros i types params ret explicit args r args' N E.
  destruct (accepted _ _ _ _ _ _ _ _ N E) as [Ex [St [[-> [-> M]]|[NE [b [-> [M [B [D S]]]]]]]]].
  - exists TParam. split; [exact St|]. split.
    + clear -M. induction M; constructor; auto. rewrite apply_id. assumption.
    + split; [rewrite apply_id; apply same_refl|]. split; [|reflexivity].
      intro H. destruct Ex as [Ex|Ex]; [congruence|]. destruct explicit; [congruence|discriminate].
  - exists (given b). split; [exact St|]. split; [exact M|]. split; [apply subst_same|]. split.
    + intro H. specialize (B H). clear -B. induction B; constructor; auto. unfold given. rewrite H. reflexivity.
    + intros Cl p H. unfold given. destruct (lookup b p) as [u|] eqn:L; [|reflexivity].
      assert (lookup b p <> None) as L' by congruence. apply D in L'. destruct L' as [[_ I]|I]; [contradiction|].
      apply Cl in I. contradiction.
Qed.

Lemma mentions_same : forall p t u, same t u -> mentions p t -> mentions p u.
Proof.
  intro p.
  assert (L : forall ts, Forall (fun t => forall u, same t u -> mentions p t -> mentions p u) ts ->
    forall us, Forall2 same ts us -> Exists (mentions p) ts -> Exists (mentions p) us).
  { induction 1; intros us F E; inversion F; subst; inversion E; subst; [constructor 1|constructor 2]; eauto. }
  induction t as [d n ts IH|d n ts IH|i g ps r IH IHr| | | | | | |e IH|q] using ty_induct; intros u S M;
    inversion S; subst; try (inversion M; fail).
  - rewrite mentions_struct in *. eauto.
  - rewrite mentions_enum in *. eauto.
  - rewrite mentions_fun in *. destruct M; eauto.
  - rewrite mentions_arr in *. eauto.
  - exact M.
Qed.

Lemma mentions_apply : forall s p t, mentions p (apply s t) <-> exists q, mentions q t /\ mentions p (s q).
Proof.
  intros s p.
  assert (L : forall ts, Forall (fun t => mentions p (apply s t) <-> exists q, mentions q t /\ mentions p (s q)) ts ->
    (Exists (mentions p) (map (apply s) ts) <-> exists q, Exists (mentions q) ts /\ mentions p (s q))).
  { induction 1 as [|t ts Ht Hts IH]; cbn [map].
    - split; [intro H; inversion H|intros [q [H _]]; inversion H].
    - rewrite Exists_cons, Ht, IH. split.
      + intros [[q [H1 H2]]|[q [H1 H2]]]; exists q; split; auto.
      + intros [q [H1 H2]]. inversion H1; subst; [left|right]; eauto. }
  induction t as [d n ts IH|d n ts IH|i g ps r IH IHr| | | | | | |e IH|q] using ty_induct; cbn [apply];
    try (split; [intro H; inversion H|intros [q [H _]]; inversion H]; fail).
  - rewrite mentions_struct, (L ts IH). split; intros [q [H1 H2]]; exists q; rewrite mentions_struct in *; auto.
  - rewrite mentions_enum, (L ts IH). split; intros [q [H1 H2]]; exists q; rewrite mentions_enum in *; auto.
  - rewrite mentions_fun, (L ps IH), IHr. split.
    + intros [[q [H1 H2]]|[q [H1 H2]]]; exists q; rewrite mentions_fun; auto.
    + intros [q [H1 H2]]. rewrite mentions_fun in H1. destruct H1; [left|right]; eauto.
  - rewrite mentions_arr, IH. split; intros [q [H1 H2]]; exists q; rewrite mentions_arr in *; auto.
  - split.
    + intro H. exists q. split; [constructor|exact H].
    + intros [q' [H1 H2]]. inversion H1; subst. exact H2.
Qed.

Lemma functionless_shows : forall p t, functionless t -> mentions p t -> shows p t.
Proof.
  intros p.
  induction t as [d n ts IH|d n ts IH|i g ps r IH IHr| | | | | | |e IH|q] using ty_induct; intros F M;
    inversion F; subst; inversion M; subst.
  - rewrite Forall_forall in *. eapply s_struct; eauto.
  - rewrite Forall_forall in *. eapply s_enum; eauto.
  - constructor. auto.
  - constructor.
Qed.

Lemma result_determined : forall i types params ret explicit args r args', NoDup types -> functionless ret ->
  match_by_type (TFun i types params ret) explicit args = (Ok r, args') ->
  (forall p, In p types -> mentions p ret -> determined types params explicit p) /\
  (forall p, In p types -> (forall a, In a args' -> ~ mentions p (ar_typ a)) ->
             (forall t, In t explicit -> ~ mentions p t) -> ~ mentions p r).
Proof.
  intros i types params ret explicit args r args' N F E.
  destruct (accepted _ _ _ _ _ _ _ _ N E) as [Ex [St [[-> _]|[NE [b [-> [M [B [D S]]]]]]]]]; [split; intros p []|].
  assert (A : forall p, mentions p ret -> determined types params explicit p).
  { intros p Hp. apply D, S, functionless_shows; assumption. }
  split; [intros p _; apply A|]. intros p I Ha He Hm.
  apply (mentions_same p _ _ (subst_same b ret)) in Hm. apply mentions_apply in Hm. destruct Hm as [q [H1 H2]].
  apply A in H1. destruct H1 as [[Hx Iq]|Hx].
  - specialize (B Hx). clear -B Iq He H2.
    revert He. induction B as [|q' t' types' explicit' L F' IH]; intro He; [destruct Iq|].
    destruct Iq as [<-|Iq].
    + unfold given in H2. rewrite L in H2. apply (He t' (or_introl eq_refl) H2).
    + apply IH; [exact Iq|]. intros t Ht. apply He. right. exact Ht.
  - clear -M Hx Ha H2. revert Ha. induction M as [|a p' args params Hs Hr IH]; intro Ha; [inversion Hx|].
    inversion Hx as [? ? Hm|? ? Hm]; subst.
    + apply (Ha a (or_introl eq_refl)). apply (mentions_same p _ _ (same_sym _ _ Hs)).
      apply mentions_apply. exists q. auto.
    + apply IH; [exact Hm|]. intros a' Ha'. apply Ha. right. exact Ha'.
Qed.

(** *** Overloads *)

Definition plain (args : list arg) : Prop := Forall (fun a => overloaded a = false) args.

Lemma check_args_plain : forall args params, plain args -> snd (check_args params args) = args.
Proof.
  induction args as [|a args IH]; intros [|p params] H; try reflexivity. inversion H; subst.
  cbn [check_args]. rewrite H2. destruct (matches (ar_typ a) p); [|reflexivity].
  specialize (IH params H3). destruct (check_args params args). cbn [snd] in *. congruence.
Qed.

Lemma check_poly_plain : forall args params b, plain args -> snd (fst (check_poly_args params args b)) = args.
Proof.
  induction args as [|a args IH]; intros [|p params] b H; try reflexivity. inversion H; subst.
  cbn [check_poly_args]. rewrite H2. destruct (poly_match (ar_typ a) p b) as [[|] b1]; [|reflexivity].
  specialize (IH params b1 H3). destruct (check_poly_args params args b1) as [[e r] b2]. cbn [fst snd] in *. congruence.
Qed.

Lemma match_plain : forall t explicit args, plain args -> snd (match_by_type t explicit args) = args.
Proof.
  intros t explicit args H. destruct t; try reflexivity. unfold match_by_type.
  destruct (negb (length args =? length params)); [reflexivity|].
  destruct (negb (length explicit =? 0) && negb (length explicit =? length types)); [reflexivity|].
  destruct (length types =? 0).
  - assert (P := check_args_plain args params H). destruct (check_args params args) as [[e|] a]; exact P.
  - assert (P := check_poly_plain args params (bind_all types explicit []) H).
    destruct (check_poly_args params args (bind_all types explicit [])) as [[[e|] a] b]; [exact P|].
    destruct (find_unbound t b); exact P.
Qed.

Lemma check_args_complete : forall args params, plain args ->
  Forall2 same (map ar_typ args) params -> fst (check_args params args) = None.
Proof.
  induction args as [|a args IH]; intros params P F; inversion F as [|? y ? l' F1 F2]; subst; [reflexivity|].
  inversion P as [|? ? P1 P2]; subst. cbn [check_args]. rewrite P1.
  replace (matches (ar_typ a) y) with true by (symmetry; apply matches_same; assumption).
  specialize (IH l' P2 F2). destruct (check_args l' args). exact IH.
Qed.

Lemma check_poly_complete : forall args params s b, plain args -> compatible b s ->
  Forall2 (fun a p => same a (apply s p)) (map ar_typ args) params ->
  fst (fst (check_poly_args params args b)) = None.
Proof.
  induction args as [|a args IH]; intros params s b P C F; inversion F as [|? y ? l' F1 F2]; subst; [reflexivity|].
  inversion P as [|? ? P1 P2]; subst. cbn [check_poly_args]. rewrite P1.
  destruct (find (ar_typ a) y b s C F1) as [b1 [E1 C1]]. rewrite E1.
  specialize (IH l' s b1 P2 C1 F2). destruct (check_poly_args l' args b1) as [[e r] b2]. exact IH.
Qed.

Lemma settled_plain : forall args args', plain args -> Forall2 settled args args' -> args' = args.
Proof.
  intros args args' P F. induction F as [|a a' args args' S F IH]; [reflexivity|].
  inversion P; subst. f_equal; [|auto]. unfold settled in S. rewrite H1 in S. exact S.
Qed.

Definition distinct_types (t : ty) : Prop :=
  match t with TFun _ types _ _ => NoDup types | _ => True end.

Lemma accept_iff : forall t explicit args, distinct_types t -> plain args ->
  ((exists r, fst (match_by_type t explicit args) = Ok r) <-> applicable t explicit (map ar_typ args)).
Proof.
  intros t explicit args N P. split.
  - intros [r E]. assert (Q := match_plain t explicit args P).
    destruct (match_by_type t explicit args) as [o a'] eqn:E0. cbn [fst snd] in *. subst o a'.
    destruct t; try discriminate.
    exists info, types, params, t. split; [reflexivity|].
    destruct (accepted _ _ _ _ _ _ _ _ N E0) as [Ex [_ [[-> [-> M]]|[NE [b [-> [M [B [D S]]]]]]]]].
    + split; [exact Ex|]. clear -M. induction M; cbn [map]; constructor; auto.
    + split; [exact Ex|]. destruct types as [|q types]; [congruence|]. exists (given b). split; [|split].
      * intro H. specialize (B H). clear -B. induction B; constructor; auto.
        unfold given. rewrite H. apply same_refl.
      * clear -M. induction M; cbn [map]; constructor; auto.
      * intros p Hp. apply D, S, Hp.
  - intros [i [types [params [ret [-> [Ex A]]]]]].
    assert (L : length args = length params).
    { destruct types; [|destruct A as [s [_ [A _]]]]; apply forall2_length in A; rewrite map_length in A; exact A. }
    destruct (match_by_type (TFun i types params ret) explicit args) as [o a'] eqn:E0. cbn [fst].
    unfold match_by_type in E0. rewrite L, Nat.eqb_refl in E0. cbn [negb] in E0.
    replace (negb (length explicit =? 0) && negb (length explicit =? length types)) with false in E0.
    2:{ destruct Ex as [->|Ex]; [reflexivity|]. rewrite Ex, Nat.eqb_refl. cbn [negb]. rewrite andb_false_r. reflexivity. }
    destruct types as [|q types]; cbn [length Nat.eqb] in E0.
    + assert (C := check_args_complete args params P A). destruct (check_args params args) as [[e|] a]; [discriminate|].
      inversion E0; subst. eauto.
    + destruct A as [s [B [A S]]].
      assert (C : compatible (bind_all (q :: types) explicit []) s).
      { destruct Ex as [->|Ex].
        - intros p u H; discriminate.
        - apply bind_all_compatible; [intros p u H; discriminate|]. apply B. intros ->. discriminate. }
      assert (R := check_poly_complete args params s _ P C A).
      destruct (check_poly_args params args (bind_all (q :: types) explicit [])) as [[[e|] a] b] eqn:E1; [discriminate|].
      assert (U : find_unbound ret b = []).
      { apply unbound_shows. intros p Hp. apply S in Hp.
        destruct (check_poly_sound _ _ _ _ _ _ L E1) as [X [K Sd]]. destruct (Sd eq_refl) as [_ [S2 _]].
        destruct Hp as [[Hx I]|Hx]; [|apply S2, Hx].
        destruct Ex as [->|Ex]; [congruence|].
        assert (F := bind_all_lookup (q :: types) explicit [] N Ex).
        revert F X. generalize (bind_all (q :: types) explicit []). intros b0 F X. clear -F X I.
        induction F as [|x y l l' Hxy F IH]; [destruct I|].
        destruct I as [<-|I]; [|auto]. rewrite (X _ _ Hxy). discriminate. }
      rewrite U in E0. inversion E0; subst. eauto.
Qed.

Lemma first_overload : forall chain explicit args, plain args -> Forall (fun c => distinct_types (snd c)) chain ->
  snd (match_by_symbol chain explicit args) = args /\
  match fst (match_by_symbol chain explicit args) with
  | inl (s, r) =>
    exists before t after, chain = before ++ (s, t) :: after /\
      fst (match_by_type t explicit args) = Ok r /\
      applicable t explicit (map ar_typ args) /\
      Forall (fun c => ~ applicable (snd c) explicit (map ar_typ args)) before
  | inr es => Forall (fun c => ~ applicable (snd c) explicit (map ar_typ args)) chain /\ length es = length chain
  end.
Proof.
  induction chain as [|[s t] rest IH]; intros explicit args P N; [split; [reflexivity|split; [constructor|reflexivity]]|].
  inversion N; subst. cbn [snd] in H1. cbn [match_by_symbol].
  assert (A := accept_iff t explicit args H1 P). assert (Q := match_plain t explicit args P).
  destruct (match_by_type t explicit args) as [[r|e] a'] eqn:E; cbn [fst snd] in *; subst a'.
  - split; [reflexivity|]. exists [], t, rest. split; [reflexivity|]. rewrite E. split; [reflexivity|].
    split; [apply A; eauto|constructor].
  - assert (NA : ~ applicable t explicit (map ar_typ args)).
    { intro H. apply A in H. destruct H as [r H]. discriminate. }
    destruct (IH explicit args P H2) as [Q2 R].
    destruct (match_by_symbol rest explicit args) as [[[s' r]|es] a'] eqn:E2; cbn [fst snd] in *; subst a'; (split; [reflexivity|]).
    + destruct R as [before [t' [after [-> [R1 [R2 R3]]]]]].
      exists ((s, t) :: before), t', after. split; [reflexivity|]. split; [exact R1|]. split; [exact R2|].
      constructor; assumption.
    + destruct R as [R1 R2]. split; [constructor; assumption|cbn; congruence].
Qed.
