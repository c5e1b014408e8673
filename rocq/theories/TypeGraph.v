(** Substitution in types as the code does it, on pointers (C15).

    Go pointers to types are indices into a store of nodes; [&Type{...}] adds a node
    at the end.  Nodes of the store are never changed by the functions below. *)
From Coq Require Import String List Bool PeanoNat Lia.
From Verif Require Import TypeModel TypeSpec TypeProofs.
Import ListNotations.

(** symtab.go:64-67 (Type), 282-330: all that a type points to.  The members of an
    enum (pointers to function types) are kept but not followed by substitution. *)
Inductive gnode :=
| GStruct (name : string) (types : list nat) (fields : list (string * nat))
| GEnum (name : string) (types : list nat) (members : list nat)
| GFun (info : nat) (types : list nat) (params : list nat) (ret : nat)
| GArr (elem : nat)
| GParam
| GInt | GBytes | GBool | GString | GNothing | GPointer.

Definition gstore := list gnode.

Definition gnew (st : gstore) (n : gnode) : gstore * nat := (st ++ [n], length st).

Fixpoint glookup (b : list (nat * nat)) (p : nat) : option nat :=
  match b with
  | [] => None
  | (q, t) :: b' => if q =? p then Some t else glookup b' p
  end.

(** The loops [for _, x := range ... { ... append(..., f(x)) }]. *)
Fixpoint gmap (f : gstore -> nat -> option (gstore * nat)) (st : gstore) (l : list nat)
  : option (gstore * list nat) :=
  match l with
  | [] => Some (st, [])
  | t :: l' =>
    match f st t with
    | None => None
    | Some (st1, t') =>
      match gmap f st1 l' with
      | None => None
      | Some (st2, r) => Some (st2, t' :: r)
      end
    end
  end.

(** typecheck.go:804-851 (substituteType), [None] when the recursion does not end
    within [fuel] nested calls.  A Go map with no entries is the empty list; a key
    of the map is a type parameter, which matches itself only.  A nil pointer
    (an index outside the store) is a fault, here [None] too. *)
Fixpoint gsubst (fuel : nat) (b : list (nat * nat)) (st : gstore) (t : nat) : option (gstore * nat) :=
  match fuel with
  | O => None
  | S fuel' =>
    match b with
    | [] => Some (st, t)
    | _ =>
      match nth_error st t with
      | None => None
      | Some (GArr e) =>
        match gsubst fuel' b st e with
        | None => None
        | Some (st1, e') => Some (gnew st1 (GArr e'))
        end
      | Some (GFun i g ps r) =>
        match gmap (gsubst fuel' b) st ps with
        | None => None
        | Some (st1, ps') =>
          match gsubst fuel' b st1 r with
          | None => None
          | Some (st2, r') => Some (gnew st2 (GFun i [] ps' r'))
          end
        end
      | Some (GStruct n ts fs) =>
        match gmap (gsubst fuel' b) st ts with
        | None => None
        | Some (st1, ts') =>
          match gmap (gsubst fuel' b) st1 (map snd fs) with
          | None => None
          | Some (st2, fs') => Some (gnew st2 (GStruct n ts' (combine (map fst fs) fs')))
          end
        end
      | Some (GEnum n ts ms) =>
        match gmap (gsubst fuel' b) st ts with
        | None => None
        | Some (st1, ts') => Some (gnew st1 (GEnum n ts' ms))
        end
      | Some GParam => Some (st, match glookup b t with Some u => u | None => t end)
      | Some _ => Some (st, t)
      end
    end
  end.

(** ** Specification *)

(** What a node refers to, as far as substitution follows it. *)
Definition refers (n : gnode) : list nat :=
  match n with
  | GStruct _ ts fs => ts ++ map snd fs
  | GEnum _ ts _ => ts
  | GFun _ _ ps r => ps ++ [r]
  | GArr e => [e]
  | _ => []
  end.

(** [inside st u t]: [t] refers directly to [u]. *)
Definition inside (st : gstore) (u t : nat) : Prop :=
  exists n, nth_error st t = Some n /\ In u (refers n).

(** Every pointer leads to a node. *)
Definition no_nil (st : gstore) : Prop :=
  forall t n u, nth_error st t = Some n -> In u (refers n) -> u < length st.

(** A type does not refer to itself, directly or through others: going from a type
    to one it refers to always comes to an end. *)
Definition finite (st : gstore) (t : nat) : Prop := Acc (inside st) t.

(** ** Proofs *)

Lemma nth_gnew : forall st n t m, nth_error st t = Some m -> nth_error (fst (gnew st n)) t = Some m.
Proof.
  intros st n t m H. cbn [gnew fst]. rewrite nth_error_app1; [exact H|].
  apply nth_error_Some. congruence.
Qed.

Definition grows (st st' : gstore) : Prop := exists more, st' = st ++ more.

Lemma grows_refl : forall st, grows st st.
Proof. intro st. exists []. rewrite app_nil_r. reflexivity. Qed.

Lemma grows_trans : forall a b c, grows a b -> grows b c -> grows a c.
Proof. intros a b c [m ->] [k ->]. exists (m ++ k). rewrite app_assoc. reflexivity. Qed.

Lemma grows_new : forall st n, grows st (fst (gnew st n)).
Proof. intros st n. exists [n]. reflexivity. Qed.

Lemma grows_nth : forall st st' t n, grows st st' -> nth_error st t = Some n -> nth_error st' t = Some n.
Proof.
  intros st st' t n [m ->] H. rewrite nth_error_app1; [exact H|]. apply nth_error_Some. congruence.
Qed.

Lemma grows_length : forall st st', grows st st' -> length st <= length st'.
Proof. intros st st' [m ->]. rewrite app_length. lia. Qed.

Lemma gmap_grows : forall f l st st' r,
  (forall st t st' t', f st t = Some (st', t') -> grows st st') ->
  gmap f st l = Some (st', r) -> grows st st'.
Proof.
  induction l as [|t l IH]; intros st st' r Hf E; cbn [gmap] in E.
  - inversion E; subst. apply grows_refl.
  - destruct (f st t) as [[st1 t']|] eqn:E1; [|discriminate].
    destruct (gmap f st1 l) as [[st2 r']|] eqn:E2; [|discriminate]. inversion E; subst.
    eapply grows_trans; [eapply Hf; exact E1|eapply IH; eassumption].
Qed.

Lemma gsubst_grows : forall fuel b st t st' t', gsubst fuel b st t = Some (st', t') -> grows st st'.
Proof.
  induction fuel as [|fuel IH]; intros b st t st' t' E; cbn [gsubst] in E; [discriminate|].
  destruct b as [|kv b']; [inversion E; apply grows_refl|]. set (b := kv :: b') in *.
  assert (G : forall st l st' r, gmap (gsubst fuel b) st l = Some (st', r) -> grows st st').
  { intros s l s' r H. eapply gmap_grows; [|exact H]. intros s1 t1 s2 t2 H1. eapply IH. exact H1. }
  destruct (nth_error st t) as [n|]; [|discriminate].
  destruct n as [n ts fs|n ts ms|i g ps r|e| | | | | | |]; try (inversion E; subst; apply grows_refl).
  - destruct (gmap (gsubst fuel b) st ts) as [[st1 ts']|] eqn:E1; [|discriminate].
    destruct (gmap (gsubst fuel b) st1 (map snd fs)) as [[st2 fs']|] eqn:E2; [|discriminate].
    inversion E; subst. eapply grows_trans; [eapply G; exact E1|]. eapply grows_trans; [eapply G; exact E2|].
    eexists. reflexivity.
  - destruct (gmap (gsubst fuel b) st ts) as [[st1 ts']|] eqn:E1; [|discriminate].
    inversion E; subst. eapply grows_trans; [eapply G; exact E1|]. eexists. reflexivity.
  - destruct (gmap (gsubst fuel b) st ps) as [[st1 ps']|] eqn:E1; [|discriminate].
    destruct (gsubst fuel b st1 r) as [[st2 r']|] eqn:E2; [|discriminate].
    inversion E; subst. eapply grows_trans; [eapply G; exact E1|]. eapply grows_trans; [eapply IH; exact E2|].
    eexists. reflexivity.
  - destruct (gsubst fuel b st e) as [[st1 e']|] eqn:E1; [|discriminate].
    inversion E; subst. eapply grows_trans; [eapply IH; exact E1|]. eexists. reflexivity.
Qed.

(** More fuel changes nothing. *)
Lemma gmap_more : forall f g l st r, (forall st t r, f st t = Some r -> g st t = Some r) ->
  gmap f st l = Some r -> gmap g st l = Some r.
Proof.
  induction l as [|t l IH]; intros st r H E; cbn [gmap] in *; [exact E|].
  destruct (f st t) as [[st1 t']|] eqn:E1; [|discriminate]. rewrite (H _ _ _ E1).
  destruct (gmap f st1 l) as [[st2 r']|] eqn:E2; [|discriminate]. rewrite (IH _ _ H E2). exact E.
Qed.

Lemma gsubst_more : forall fuel b st t r, gsubst fuel b st t = Some r -> gsubst (S fuel) b st t = Some r.
Proof.
  induction fuel as [|fuel IH]; intros b st t r E; [discriminate|].
  change (gsubst (S (S fuel)) b st t = Some r). remember (S fuel) as f1. cbn [gsubst]. subst f1.
  cbn [gsubst] in E. destruct b as [|kv b']; [exact E|]. set (b := kv :: b') in *.
  assert (H : forall st t r, gsubst fuel b st t = Some r -> gsubst (S fuel) b st t = Some r)
    by (intros; apply IH; assumption).
  destruct (nth_error st t) as [n|]; [|discriminate].
  destruct n as [n ts fs|n ts ms|i g ps rt|e| | | | | | |]; try exact E.
  - destruct (gmap (gsubst fuel b) st ts) as [[st1 ts']|] eqn:E1; [|discriminate].
    destruct (gmap (gsubst fuel b) st1 (map snd fs)) as [[st2 fs']|] eqn:E2; [|discriminate].
    rewrite (gmap_more _ _ _ _ _ H E1), (gmap_more _ _ _ _ _ H E2). exact E.
  - destruct (gmap (gsubst fuel b) st ts) as [[st1 ts']|] eqn:E1; [|discriminate].
    rewrite (gmap_more _ _ _ _ _ H E1). exact E.
  - destruct (gmap (gsubst fuel b) st ps) as [[st1 ps']|] eqn:E1; [|discriminate].
    destruct (gsubst fuel b st1 rt) as [[st2 r']|] eqn:E2; [|discriminate].
    rewrite (gmap_more _ _ _ _ _ H E1), (H _ _ _ E2). exact E.
  - destruct (gsubst fuel b st e) as [[st1 e']|] eqn:E1; [|discriminate].
    rewrite (H _ _ _ E1). exact E.
Qed.

Lemma gsubst_le : forall fuel fuel' b st t r, fuel <= fuel' -> gsubst fuel b st t = Some r ->
  gsubst fuel' b st t = Some r.
Proof. induction 1; intro E; [exact E|]. apply gsubst_more. auto. Qed.

Lemma gmap_le : forall fuel fuel' b st l r, fuel <= fuel' -> gmap (gsubst fuel b) st l = Some r ->
  gmap (gsubst fuel' b) st l = Some r.
Proof. intros. eapply gmap_more; [|eassumption]. intros. eapply gsubst_le; eassumption. Qed.

(** Ending for each part means ending for the list, whatever was added before. *)
Definition ends_from (st : gstore) (b : list (nat * nat)) (t : nat) : Prop :=
  forall st', grows st st' -> exists fuel r, gsubst fuel b st' t = Some r.

Lemma gmap_ends : forall b st l, (forall t, In t l -> ends_from st b t) ->
  forall st', grows st st' -> exists fuel r, gmap (gsubst fuel b) st' l = Some r.
Proof.
  induction l as [|t l IH]; intros H st' G.
  - exists 0, (st', []). reflexivity.
  - destruct (H t (or_introl eq_refl) st' G) as [f1 [[st1 t'] E1]].
    assert (G1 := gsubst_grows _ _ _ _ _ _ E1).
    destruct (IH (fun t Ht => H t (or_intror Ht)) st1 (grows_trans _ _ _ G G1)) as [f2 [[st2 r] E2]].
    exists (f1 + f2), (st2, t' :: r). cbn [gmap].
    rewrite (gsubst_le f1 (f1 + f2)) with (r := (st1, t')) by (exact E1 || lia).
    rewrite (gmap_le f2 (f1 + f2)) with (r := (st2, r)) by (exact E2 || lia). reflexivity.
Qed.

Lemma finite_ends : forall b st, no_nil st -> forall t, finite st t -> t < length st -> ends_from st b t.
Proof.
  intros b st Hn t F. induction F as [t _ IH]. intros Ht st' G.
  destruct b as [|kv b']; [exists 1, (st', t); reflexivity|]. set (b := kv :: b') in *.
  destruct (nth_error st t) as [n|] eqn:N; [|apply nth_error_None in N; lia].
  assert (P : forall u, In u (refers n) -> ends_from st b u).
  { intros u Hu. apply IH; [exists n; auto|]. eapply Hn; eassumption. }
  assert (N' := grows_nth _ _ _ _ G N).
  destruct n as [n ts fs|n ts ms|i g ps r|e| | | | | | |];
    try (exists 1; cbn [gsubst]; unfold b at 1; rewrite N'; eauto; fail).
  - destruct (gmap_ends b st ts) with (st' := st') as [f1 [[st1 ts'] E1]]; [|exact G|].
    { intros u Hu. apply P. cbn [refers]. apply in_or_app. auto. }
    assert (G1 : grows st' st1) by (eapply gmap_grows; [|exact E1]; intros; eapply gsubst_grows; eassumption).
    destruct (gmap_ends b st (map snd fs)) with (st' := st1) as [f2 [[st2 fs'] E2]].
    { intros u Hu. apply P. cbn [refers]. apply in_or_app. auto. }
    { eapply grows_trans; eassumption. }
    exists (S (f1 + f2)). cbn [gsubst]. unfold b at 1. rewrite N'.
    rewrite (gmap_le f1 (f1 + f2)) with (r := (st1, ts')) by (exact E1 || lia).
    rewrite (gmap_le f2 (f1 + f2)) with (r := (st2, fs')) by (exact E2 || lia). eauto.
  - destruct (gmap_ends b st ts) with (st' := st') as [f1 [[st1 ts'] E1]]; [|exact G|].
    { intros u Hu. apply P. exact Hu. }
    exists (S f1). cbn [gsubst]. unfold b at 1. rewrite N', E1. eauto.
  - destruct (gmap_ends b st ps) with (st' := st') as [f1 [[st1 ps'] E1]]; [|exact G|].
    { intros u Hu. apply P. cbn [refers]. apply in_or_app. auto. }
    assert (G1 : grows st' st1) by (eapply gmap_grows; [|exact E1]; intros; eapply gsubst_grows; eassumption).
    assert (Pr : ends_from st b r) by (apply P; cbn [refers]; apply in_or_app; right; left; reflexivity).
    destruct (Pr st1 (grows_trans _ _ _ G G1)) as [f2 [[st2 r'] E2]].
    exists (S (f1 + f2)). cbn [gsubst]. unfold b at 1. rewrite N'.
    rewrite (gmap_le f1 (f1 + f2)) with (r := (st1, ps')) by (exact E1 || lia).
    rewrite (gsubst_le f2 (f1 + f2)) with (r := (st2, r')) by (exact E2 || lia). eauto.
  - assert (Pe : ends_from st b e) by (apply P; left; reflexivity).
    destruct (Pe st' G) as [f1 [[st1 e'] E1]].
    exists (S f1). cbn [gsubst]. unfold b at 1. rewrite N', E1. eauto.
Qed.

(** Conversely, a type for which substitution ends is finite. *)
Lemma gmap_each : forall b fuel l st r, gmap (gsubst fuel b) st l = Some r ->
  forall u, In u l -> exists st1 r1, grows st st1 /\ gsubst fuel b st1 u = Some r1.
Proof.
  induction l as [|t l IH]; intros st r E u Hu; [destruct Hu|]. cbn [gmap] in E.
  destruct (gsubst fuel b st t) as [[st1 t']|] eqn:E1; [|discriminate].
  destruct (gmap (gsubst fuel b) st1 l) as [[st2 r']|] eqn:E2; [|discriminate].
  destruct Hu as [<-|Hu]; [exists st, (st1, t'); split; [apply grows_refl|exact E1]|].
  destruct (IH st1 _ E2 u Hu) as [s [r1 [G H]]]. exists s, r1. split; [|exact H].
  eapply grows_trans; [eapply gsubst_grows; exact E1|exact G].
Qed.

Lemma ends_finite : forall b st, b <> [] -> no_nil st -> forall fuel t st' r, t < length st -> grows st st' ->
  gsubst fuel b st' t = Some r -> finite st t.
Proof.
  intros b st Nb Hn. induction fuel as [|fuel IH]; intros t st' r Ht G E; [discriminate|].
  cbn [gsubst] in E. destruct b as [|kv b']; [congruence|]. set (b := kv :: b') in *.
  destruct (nth_error st t) as [n|] eqn:N; [|apply nth_error_None in N; lia].
  rewrite (grows_nth _ _ _ _ G N) in E. constructor. intros u [n' [N' Hu]].
  rewrite N in N'. inversion N'; subst n'. clear N'.
  assert (Hlt := Hn _ _ _ N Hu).
  assert (L : forall l st1 x, grows st st1 -> gmap (gsubst fuel b) st1 l = Some x -> In u l -> finite st u).
  { intros l st1 x G1 E1 I. destruct (gmap_each _ _ _ _ _ E1 u I) as [s [r1 [G2 E2]]].
    eapply IH; [exact Hlt| |exact E2]. eapply grows_trans; eassumption. }
  assert (Gm : forall l s s' x, gmap (gsubst fuel b) s l = Some (s', x) -> grows s s').
  { intros. eapply gmap_grows; [|eassumption]. intros; eapply gsubst_grows; eassumption. }
  destruct n as [n ts fs|n ts ms|i g ps rt|e| | | | | | |]; cbn [refers] in Hu; try (destruct Hu; fail).
  - destruct (gmap (gsubst fuel b) st' ts) as [[st1 ts']|] eqn:E1; [|discriminate].
    destruct (gmap (gsubst fuel b) st1 (map snd fs)) as [[st2 fs']|] eqn:E2; [|discriminate].
    apply in_app_or in Hu. destruct Hu as [Hu|Hu]; [eapply L; [exact G|exact E1|exact Hu]|].
    eapply L; [|exact E2|exact Hu]. eapply grows_trans; [exact G|eapply Gm; exact E1].
  - destruct (gmap (gsubst fuel b) st' ts) as [[st1 ts']|] eqn:E1; [|discriminate].
    eapply L; [exact G|exact E1|exact Hu].
  - destruct (gmap (gsubst fuel b) st' ps) as [[st1 ps']|] eqn:E1; [|discriminate].
    destruct (gsubst fuel b st1 rt) as [[st2 r']|] eqn:E2; [|discriminate].
    apply in_app_or in Hu. destruct Hu as [Hu|[<-|[]]]; [eapply L; [exact G|exact E1|exact Hu]|].
    eapply IH; [exact Hlt| |exact E2]. eapply grows_trans; [exact G|eapply Gm; exact E1].
  - destruct (gsubst fuel b st' e) as [[st1 e']|] eqn:E1; [|discriminate].
    destruct Hu as [<-|[]]. eapply IH; [exact Hlt|exact G|exact E1].
Qed.

Lemma terminates_exactly : forall b st t, no_nil st -> t < length st ->
  ((exists fuel r, gsubst fuel b st t = Some r) <-> b = [] \/ finite st t).
Proof.
  intros b st t Hn Ht. split.
  - intros [fuel [r E]]. destruct b as [|kv b]; [auto|]. right.
    eapply ends_finite with (b := kv :: b); [discriminate|exact Hn|exact Ht|apply grows_refl|exact E].
  - intros [->|F]; [exists 1, (st, t); reflexivity|].
    apply (finite_ends b st Hn t F Ht st (grows_refl st)).
Qed.

(** A type that refers to itself, directly or through others, is not finite. *)
Inductive reaches (st : gstore) : nat -> nat -> Prop :=
| reach_one : forall t u, inside st u t -> reaches st t u
| reach_more : forall t u v, inside st u t -> reaches st u v -> reaches st t v.

Lemma reaches_snoc : forall st t u v, reaches st t u -> inside st v u -> reaches st t v.
Proof.
  intros st t u v R I. induction R as [t u H|t u w H R IH].
  - eapply reach_more; [exact H|apply reach_one, I].
  - eapply reach_more; [exact H|auto].
Qed.

Lemma cyclic_infinite : forall st t, reaches st t t -> ~ finite st t.
Proof.
  intros st t R F. revert R. induction F as [t _ IH]. intro R.
  inversion R as [? ? I|? u ? I R']; subst.
  - apply (IH t I R).
  - apply (IH u I). eapply reaches_snoc; eassumption.
Qed.

(** A way to see that a type is finite: everything reached has a smaller number. *)
Lemma ranked_finite : forall st (rank : nat -> nat), 
  (forall t u, inside st u t -> rank u < rank t) -> forall t, finite st t.
Proof.
  intros st rank H t. remember (rank t) as n eqn:E.
  assert (L : rank t < S n) by lia. clear E. revert t L. generalize (S n) as m. clear n.
  induction m as [|m IH]; intros t L; [lia|]. constructor. intros u I. apply IH. apply H in I. lia.
Qed.

(** ** The trees of TypeModel are the pointers of this file *)

(** The tree under a pointer, as TypeModel sees it: without fields and members. *)
Inductive tree (st : gstore) : nat -> ty -> Prop :=
| tr_struct : forall t n ts fs us, nth_error st t = Some (GStruct n ts fs) ->
    Forall2 (tree st) ts us -> tree st t (TStruct t n us)
| tr_enum : forall t n ts ms us, nth_error st t = Some (GEnum n ts ms) ->
    Forall2 (tree st) ts us -> tree st t (TEnum t n us)
| tr_fun : forall t i g ps r us u, nth_error st t = Some (GFun i g ps r) ->
    Forall2 (tree st) ps us -> tree st r u -> tree st t (TFun i g us u)
| tr_arr : forall t e u, nth_error st t = Some (GArr e) -> tree st e u -> tree st t (TArr u)
| tr_param : forall t, nth_error st t = Some GParam -> tree st t (TParam t)
| tr_int : forall t, nth_error st t = Some GInt -> tree st t TInt
| tr_bytes : forall t, nth_error st t = Some GBytes -> tree st t TBytes
| tr_bool : forall t, nth_error st t = Some GBool -> tree st t TBool
| tr_string : forall t, nth_error st t = Some GString -> tree st t TString
| tr_nothing : forall t, nth_error st t = Some GNothing -> tree st t TNothing
| tr_pointer : forall t, nth_error st t = Some GPointer -> tree st t TPointer.

Lemma tree_grows : forall st st' u t, grows st st' -> tree st t u -> tree st' t u.
Proof.
  intros st st' u t G. revert t.
  assert (L : forall us, Forall (fun u => forall t, tree st t u -> tree st' t u) us ->
    forall ts, Forall2 (tree st) ts us -> Forall2 (tree st') ts us).
  { induction 1; intros ts F; inversion F; subst; constructor; auto. }
  induction u using ty_induct; intros t T; inversion T; subst; econstructor;
    try (eapply grows_nth; eassumption); eauto.
Qed.

(** The bindings, as TypeModel sees them. *)
Definition tree_binding (st : gstore) : list (nat * nat) -> binding -> Prop :=
  Forall2 (fun kv pu => fst kv = fst pu /\ tree st (snd kv) (snd pu)).

Lemma tree_binding_grows : forall st st' b c, grows st st' -> tree_binding st b c -> tree_binding st' b c.
Proof.
  intros st st' b c G F. induction F as [|kv pu b c [H1 H2] F IH]; constructor; auto.
  split; [exact H1|eapply tree_grows; eassumption].
Qed.

Lemma tree_lookup : forall st b c p, tree_binding st b c ->
  match glookup b p, lookup c p with
  | Some t, Some u => tree st t u
  | None, None => True
  | _, _ => False
  end.
Proof.
  intros st b c p F. induction F as [|[k v] [q u] b c [H1 H2] F IH]; cbn [glookup lookup]; [exact I|].
  cbn [fst snd] in H1, H2. subst q. destruct (k =? p); [exact H2|exact IH].
Qed.

(** Substitution on pointers does what [subst] does on trees. *)
Lemma gsubst_tree : forall u fuel b c st t st' t', tree_binding st b c -> tree st t u ->
  gsubst fuel b st t = Some (st', t') -> exists u', tree st' t' u' /\ same u' (subst u c).
Proof.
  intro u.
  assert (L : forall us, Forall (fun u => forall fuel b c st t st' t', tree_binding st b c -> tree st t u ->
      gsubst fuel b st t = Some (st', t') -> exists u', tree st' t' u' /\ same u' (subst u c)) us ->
    forall fuel b c st ts st' ts', tree_binding st b c -> Forall2 (tree st) ts us ->
    gmap (gsubst fuel b) st ts = Some (st', ts') ->
    exists us', Forall2 (tree st') ts' us' /\ Forall2 same us' (all_subst us c)).
  { induction 1 as [|x us Hx Hus IH]; intros fuel b c st ts st' ts' B F E; inversion F as [|x0 y0 l l0 H1 H3]; subst; cbn [gmap] in E.
    - inversion E; subst. exists []. split; constructor.
    - destruct (gsubst fuel b st x0) as [[st1 t1]|] eqn:E1; [|discriminate].
      destruct (gmap (gsubst fuel b) st1 l) as [[st2 r]|] eqn:E2; [|discriminate]. inversion E; subst.
      assert (G1 := gsubst_grows _ _ _ _ _ _ E1).
      destruct (Hx _ _ _ _ _ _ _ B H1 E1) as [u1 [T1 S1]].
      assert (F1 : Forall2 (tree st1) l us).
      { clear -H3 G1. induction H3; constructor; auto. eapply tree_grows; eassumption. }
      destruct (IH _ _ _ _ _ _ _ (tree_binding_grows _ _ _ _ G1 B) F1 E2) as [us' [T2 S2]].
      assert (G2 : grows st1 st') by (eapply gmap_grows; [|exact E2]; intros; eapply gsubst_grows; eassumption).
      exists (u1 :: us'). split; constructor; auto. eapply tree_grows; eassumption. }
  assert (New : forall (st : gstore) (n : gnode), nth_error (st ++ [n]) (length st) = Some n).
  { intros st n. rewrite nth_error_app2 by lia. rewrite Nat.sub_diag. reflexivity. }
  assert (Gm : forall fuel b l s s' x, gmap (gsubst fuel b) s l = Some (s', x) -> grows s s').
  { intros. eapply gmap_grows; [|eassumption]. intros; eapply gsubst_grows; eassumption. }
  assert (Gl : forall st st' ts us, grows st st' -> Forall2 (tree st) ts us -> Forall2 (tree st') ts us).
  { intros st st' ts us G F. induction F; constructor; auto. eapply tree_grows; eassumption. }
  assert (New1 : forall (st : gstore) (n : gnode), grows st (st ++ [n])) by (intros; eexists; reflexivity).
  induction u as [d n us IH|d n us IH|i g us rt IH IHr| | | | | | |e IH|p] using ty_induct;
    intros fuel b c st t st' t' B T E; (destruct fuel as [|fuel]; [discriminate|]); cbn [gsubst] in E;
    (destruct b as [|kv b'];
      [inversion E; subst; inversion B; subst;
       eexists; split; [exact T|apply same_refl]|]).
  all: try (set (b := kv :: b') in *; inversion B as [|? [p0 u0] ? c' ? ?]; subst c; set (c := (p0, u0) :: c') in *; 
    inversion T; subst;
    match goal with H : nth_error _ _ = Some _ |- _ => rewrite H in E end;
    try match goal with H : Forall2 (tree _) _ _ |- _ => rename H into TT end).
  all: try (inversion E; subst; eexists; split; [exact T|apply same_refl]; fail).
  - destruct (gmap (gsubst fuel b) st ts) as [[st1 ts']|] eqn:E1; [|discriminate].
    destruct (gmap (gsubst fuel b) st1 (map snd fs)) as [[st2 fs']|] eqn:E2; [|discriminate].
    destruct (L us IH _ _ _ _ _ _ _ B TT E1) as [us' [T1 S1]]. inversion E; subst.
    exists (TStruct (length st2) n us'). split.
    + econstructor; [apply New|]. eapply Gl; [|exact T1]. eapply grows_trans; [eapply Gm; exact E2|apply New1].
    + change (subst (TStruct d n us) c) with (TStruct 0 n (all_subst us c)). constructor. exact S1.
  - destruct (gmap (gsubst fuel b) st ts) as [[st1 ts']|] eqn:E1; [|discriminate].
    destruct (L us IH _ _ _ _ _ _ _ B TT E1) as [us' [T1 S1]]. inversion E; subst.
    exists (TEnum (length st1) n us'). split.
    + econstructor; [apply New|]. eapply Gl; [|exact T1]. apply New1.
    + change (subst (TEnum d n us) c) with (TEnum 0 n (all_subst us c)). constructor. exact S1.
  - match goal with H : tree st _ rt |- _ => rename H into TR end.
    destruct (gmap (gsubst fuel b) st ps) as [[st1 ps']|] eqn:E1; [|discriminate].
    destruct (gsubst fuel b st1 r) as [[st2 r']|] eqn:E2; [|discriminate].
    destruct (L us IH _ _ _ _ _ _ _ B TT E1) as [us' [T1 S1]]. assert (G1 := Gm _ _ _ _ _ _ E1).
    destruct (IHr _ _ _ _ _ _ _ (tree_binding_grows _ _ _ _ G1 B) (tree_grows _ _ _ _ G1 TR) E2) as [u' [T2 S2]].
    inversion E; subst. assert (G2 := gsubst_grows _ _ _ _ _ _ E2).
    exists (TFun i [] us' u'). split.
    + econstructor; [apply New| |].
      * eapply Gl; [|exact T1]. eapply grows_trans; [exact G2|apply New1].
      * eapply tree_grows; [apply New1|exact T2].
    + change (subst (TFun i g us rt) c) with (TFun i [] (all_subst us c) (subst rt c)). constructor; assumption.
  - match goal with H : tree st _ e |- _ => rename H into TE end.
    destruct (gsubst fuel b st e0) as [[st1 e']|] eqn:E1; [|discriminate].
    destruct (IH _ _ _ _ _ _ _ B TE E1) as [u' [T1 S1]]. inversion E; subst.
    exists (TArr u'). split.
    + econstructor; [apply New|]. eapply tree_grows; [apply New1|exact T1].
    + change (subst (TArr e) c) with (TArr (subst e c)). constructor. exact S1.
  - assert (Lk := tree_lookup st b c p B). change (glookup (kv :: b') p) with (glookup b p) in E.
    change (subst (TParam p) c) with (match lookup c p with Some u => u | None => TParam p end).
    destruct (glookup b p) as [v|]; destruct (lookup c p) as [u|]; try contradiction.
    + inversion E; subst. exists u. split; [exact Lk|apply same_refl].
    + inversion E; subst. eexists. split; [exact T|apply same_refl].
Qed.

(** Fields of a struct keep their names and get the substituted types; members of an
    enum are kept. *)
Lemma gmap_trees : forall fuel b c l st st' l', tree_binding st b c ->
  gmap (gsubst fuel b) st l = Some (st', l') ->
  Forall2 (fun t t' => forall u, tree st t u -> exists u', tree st' t' u' /\ same u' (subst u c)) l l'.
Proof.
  induction l as [|t l IH]; intros st st' l' B E; cbn [gmap] in E; [inversion E; constructor|].
  destruct (gsubst fuel b st t) as [[st1 t1]|] eqn:E1; [|discriminate].
  destruct (gmap (gsubst fuel b) st1 l) as [[st2 r]|] eqn:E2; [|discriminate]. inversion E; subst.
  assert (G1 := gsubst_grows _ _ _ _ _ _ E1).
  assert (G2 : grows st1 st') by (eapply gmap_grows; [|exact E2]; intros; eapply gsubst_grows; eassumption).
  constructor.
  - intros u T. destruct (gsubst_tree _ _ _ _ _ _ _ _ B T E1) as [u' [T' S]].
    exists u'. split; [eapply tree_grows; eassumption|exact S].
  - assert (F := IH st1 st' r (tree_binding_grows _ _ _ _ G1 B) E2).
    clear -F G1. induction F; constructor; auto. intros u T. apply H. eapply tree_grows; eassumption.
Qed.

Lemma gsubst_fields : forall fuel b c st t n ts fs st' t', b <> [] -> tree_binding st b c ->
  nth_error st t = Some (GStruct n ts fs) -> gsubst fuel b st t = Some (st', t') ->
  exists ts' fs', nth_error st' t' = Some (GStruct n ts' fs') /\
    Forall2 (fun f f' => fst f = fst f' /\
      forall u, tree st (snd f) u -> exists u', tree st' (snd f') u' /\ same u' (subst u c)) fs fs'.
Proof.
  intros [|fuel] b c st t n ts fs st' t' Nb B N E; [discriminate|]. cbn [gsubst] in E.
  destruct b as [|kv b']; [congruence|]. set (b := kv :: b') in *. rewrite N in E.
  destruct (gmap (gsubst fuel b) st ts) as [[st1 ts']|] eqn:E1; [|discriminate].
  destruct (gmap (gsubst fuel b) st1 (map snd fs)) as [[st2 fs']|] eqn:E2; [|discriminate].
  assert (Gm : forall l s s' x, gmap (gsubst fuel b) s l = Some (s', x) -> grows s s').
  { intros. eapply gmap_grows; [|eassumption]. intros; eapply gsubst_grows; eassumption. }
  assert (G1 := Gm _ _ _ _ E1).
  assert (F := gmap_trees _ _ _ _ _ _ _ (tree_binding_grows _ _ _ _ G1 B) E2).
  inversion E; subst. exists ts', (combine (map fst fs) fs'). split.
  - rewrite nth_error_app2 by lia. rewrite Nat.sub_diag. reflexivity.
  - assert (G3 : grows st2 (st2 ++ [GStruct n ts' (combine (map fst fs) fs')])) by (eexists; reflexivity).
    remember (st2 ++ [GStruct n ts' (combine (map fst fs) fs')])%list as st3. clear Heqst3 E E2 N.
    revert fs' F. induction fs as [|[k v] fs IH]; intros fs' F; cbn [map] in F; inversion F; subst;
      cbn [map combine]; constructor; auto. cbn [fst snd]. split; [reflexivity|].
    intros u T. destruct (H1 u) as [u' [T' S']]; [eapply tree_grows; eassumption|].
    exists u'. split; [eapply tree_grows; eassumption|exact S'].
Qed.

Lemma gsubst_members : forall fuel b st t n ts ms st' t', b <> [] ->
  nth_error st t = Some (GEnum n ts ms) -> gsubst fuel b st t = Some (st', t') ->
  exists ts', nth_error st' t' = Some (GEnum n ts' ms).
Proof.
  intros [|fuel] b st t n ts ms st' t' Nb N E; [discriminate|]. cbn [gsubst] in E.
  destruct b as [|kv b']; [congruence|]. rewrite N in E.
  destruct (gmap (gsubst fuel (kv :: b')) st ts) as [[st1 ts']|] eqn:E1; [|discriminate].
  inversion E; subst. exists ts'. rewrite nth_error_app2 by lia. rewrite Nat.sub_diag. reflexivity.
Qed.

(** ** Type expressions *)

(** The AST of a type: opNamedType with or without type arguments, opFuncType with
    or without a result, opArrayType (parse.go:495-531). *)
Inductive texp :=
| XNamed (name : string) (args : option (list texp))
| XFun (params : list texp) (ret : option texp)
| XArr (elem : texp).

(** What instantiateType leaves: the store, whether there were errors, the pointer
    or nil. *)
Definition istate := (gstore * bool * option nat)%type.

(** semantic.go:246-333 (instantiateType).  [env] is symtab.ResolveAll for types
    (249), [nothing] the pointer nothingType.  The errors, which the code collects,
    are counted as one boolean.  [None] when a call of substituteType does not end
    within [fuel]. *)
Fixpoint inst (fuel : nat) (env : string -> option nat) (nothing : nat) (st : gstore) (errs : bool) (e : texp)
  {struct e} : option istate :=
  let all := fix all (st : gstore) (errs : bool) (es : list texp) {struct es}
      : option (gstore * bool * list (option nat)) :=
    match es with
    | [] => Some (st, errs, [])
    | x :: es' =>
      match inst fuel env nothing st errs x with
      | None => None
      | Some (st1, errs1, t) =>
        match all st1 errs1 es' with
        | None => None
        | Some (st2, errs2, l) => Some (st2, errs2, t :: l)
        end
      end
    end in
  let ptrs := map (fun o => match o with Some t => t | None => nothing end) in
  match e with
  | XNamed name args =>
    match env name with
    | None => Some (st, true, None)
    | Some s =>
      match args with
      | None => Some (st, errs, Some s)
      | Some es =>
        match all st errs es with
        | None => None
        | Some (st1, errs1, ts) =>
          match nth_error st s with
          | Some (GStruct _ tps _) | Some (GEnum _ tps _) =>
            if length tps =? 0 then Some (st1, true, None)
            else if negb (length tps =? length ts) then Some (st1, true, None)
            else if errs1 then Some (st1, errs1, None)
            else match gsubst fuel (combine tps (ptrs ts)) st1 s with
                 | None => None
                 | Some (st2, t) => Some (st2, errs1, Some t)
                 end
          | _ => Some (st1, true, None)
          end
        end
      end
    end
  | XFun es ret =>
    match all st errs es with
    | None => None
    | Some (st1, errs1, ts) =>
      match match ret with
            | None => Some (st1, errs1, Some nothing)
            | Some r => inst fuel env nothing st1 errs1 r
            end with
      | None => None
      | Some (st2, errs2, r) =>
        if errs2 then Some (st2, errs2, None)
        else let '(st3, t) := gnew st2 (GFun 0 [] (ptrs ts) (match r with Some t => t | None => nothing end)) in
             Some (st3, errs2, Some t)
      end
    end
  | XArr x =>
    match inst fuel env nothing st errs x with
    | None => None
    | Some (st1, errs1, t) =>
      if errs1 then Some (st1, errs1, None)
      else let '(st2, t') := gnew st1 (GArr (match t with Some t => t | None => nothing end)) in
           Some (st2, errs1, Some t')
    end
  end.

Section TexpInduction.
  Variable P : texp -> Prop.
  Hypothesis Hname : forall n, P (XNamed n None).
  Hypothesis Hnamed : forall n es, Forall P es -> P (XNamed n (Some es)).
  Hypothesis Hfun0 : forall es, Forall P es -> P (XFun es None).
  Hypothesis Hfun : forall es r, Forall P es -> P r -> P (XFun es (Some r)).
  Hypothesis Harr : forall e, P e -> P (XArr e).

  Fixpoint texp_induct (e : texp) : P e :=
    let all := fix all (es : list texp) : Forall P es :=
      match es with
      | [] => Forall_nil P
      | x :: es' => Forall_cons x (texp_induct x) (all es')
      end in
    match e with
    | XNamed n None => Hname n
    | XNamed n (Some es) => Hnamed n es (all es)
    | XFun es None => Hfun0 es (all es)
    | XFun es (Some r) => Hfun es r (all es) (texp_induct r)
    | XArr x => Harr x (texp_induct x)
    end.
End TexpInduction.

Definition inst_all (fuel : nat) (env : string -> option nat) (nothing : nat) :=
  fix all (st : gstore) (errs : bool) (es : list texp) {struct es} : option (gstore * bool * list (option nat)) :=
    match es with
    | [] => Some (st, errs, [])
    | x :: es' =>
      match inst fuel env nothing st errs x with
      | None => None
      | Some (st1, errs1, t) =>
        match all st1 errs1 es' with
        | None => None
        | Some (st2, errs2, l) => Some (st2, errs2, t :: l)
        end
      end
    end.

(** From some fuel on, instantiation has one answer, which only adds nodes. *)
Definition inst_ends env nothing (st0 : gstore) (e : texp) : Prop := forall st errs, grows st0 st ->
  exists f0 r, grows st (fst (fst r)) /\ forall fuel, f0 <= fuel -> inst fuel env nothing st errs e = Some r.

Lemma inst_all_ends : forall env nothing st0 es, Forall (inst_ends env nothing st0) es ->
  forall st errs, grows st0 st ->
  exists f0 r, grows st (fst (fst r)) /\ forall fuel, f0 <= fuel -> inst_all fuel env nothing st errs es = Some r.
Proof.
  induction 1 as [|x es Hx Hes IH]; intros st errs G.
  - exists 0, (st, errs, []). split; [apply grows_refl|reflexivity].
  - destruct (Hx st errs G) as [f1 [[[st1 errs1] t] [G1 E1]]]. cbn [fst] in G1.
    destruct (IH st1 errs1 (grows_trans _ _ _ G G1)) as [f2 [[[st2 errs2] l] [G2 E2]]]. cbn [fst] in G2.
    exists (f1 + f2), (st2, errs2, t :: l). split; [eapply grows_trans; eassumption|].
    intros fuel Hf. cbn [inst_all]. rewrite E1 by lia. rewrite E2 by lia. reflexivity.
Qed.

Lemma instantiate_ends : forall env nothing st0, no_nil st0 ->
  (forall name t, env name = Some t -> t < length st0 /\ finite st0 t) ->
  forall e, inst_ends env nothing st0 e.
Proof.
  intros env nothing st0 Hn He.
  induction e as [n|n es IH|es IH|es r IH IHr|x IH] using texp_induct; intros st errs G.
  - exists 0. cbn [inst]. destruct (env n); eexists; (split; [|intros; reflexivity]); apply grows_refl.
  - destruct (env n) as [s|] eqn:En.
    2:{ exists 0, (st, true, None). split; [apply grows_refl|]. intros fuel _. cbn [inst]. rewrite En. reflexivity. }
    destruct (He n s En) as [Hs Hf].
    destruct (inst_all_ends env nothing st0 es IH st errs G) as [f1 [[[st1 errs1] ts] [G1 E1]]]. cbn [fst] in G1.
    assert (Eq : forall fuel, f1 <= fuel -> inst fuel env nothing st errs (XNamed n (Some es)) =
      match nth_error st s with
      | Some (GStruct _ tps _) | Some (GEnum _ tps _) =>
        if length tps =? 0 then Some (st1, true, None)
        else if negb (length tps =? length ts) then Some (st1, true, None)
        else if errs1 then Some (st1, errs1, None)
        else match gsubst fuel (combine tps (map (fun o => match o with Some t => t | None => nothing end) ts)) st1 s with
             | None => None
             | Some (st2, t) => Some (st2, errs1, Some t)
             end
      | _ => Some (st1, true, None)
      end).
    { intros fuel Hfu. cbn [inst]. fold (inst_all fuel env nothing). rewrite En, E1 by exact Hfu. reflexivity. }
    assert (Triv : forall o b, exists f0 r, grows st (fst (fst r)) /\
        forall fuel : nat, f0 <= fuel -> @Some istate (st1, b, o) = Some r).
    { intros o b0. exists 0, (st1, b0, o). split; [exact G1|reflexivity]. }
    assert (Sub : forall tps, exists f0 r, grows st (fst (fst r)) /\ forall fuel, f0 <= fuel ->
      (if length tps =? 0 then Some (st1, true, None)
        else if negb (length tps =? length ts) then Some (st1, true, None)
        else if errs1 then Some (st1, errs1, None)
        else match gsubst fuel (combine tps (map (fun o => match o with Some t => t | None => nothing end) ts)) st1 s with
             | None => None
             | Some (st2, t) => Some (st2, errs1, Some t)
             end) = @Some istate r).
    { intro tps. destruct (length tps =? 0); [apply Triv|]. destruct (negb (length tps =? length ts)); [apply Triv|].
      destruct errs1; [apply Triv|].
      set (b := combine tps _).
      destruct (finite_ends b st0 Hn s Hf Hs st1 (grows_trans _ _ _ G G1)) as [f2 [[st2 t] E2]].
      exists f2, (st2, false, Some t). split.
      - cbn [fst]. eapply grows_trans; [exact G1|eapply gsubst_grows; exact E2].
      - intros fuel Hfu. rewrite (gsubst_le f2 fuel) with (r := (st2, t)) by assumption. reflexivity. }
    assert (Goal : exists f0 r, grows st (fst (fst r)) /\ forall fuel, f0 <= fuel ->
      match nth_error st s with
      | Some (GStruct _ tps _) | Some (GEnum _ tps _) =>
        if length tps =? 0 then Some (st1, true, None)
        else if negb (length tps =? length ts) then Some (st1, true, None)
        else if errs1 then Some (st1, errs1, None)
        else match gsubst fuel (combine tps (map (fun o => match o with Some t => t | None => nothing end) ts)) st1 s with
             | None => None
             | Some (st2, t) => Some (st2, errs1, Some t)
             end
      | _ => Some (st1, true, None)
      end = @Some istate r).
    { destruct (nth_error st s) as [[]|]; try apply Triv; apply Sub. }
    destruct Goal as [f0 [r [Gr Er]]]. exists (f0 + f1), r. split; [exact Gr|].
    intros fuel Hfu. rewrite Eq by lia. apply Er. lia.
  - destruct (inst_all_ends env nothing st0 es IH st errs G) as [f1 [[[st1 errs1] ts] [G1 E1]]]. cbn [fst] in G1.
    destruct errs1.
    + exists f1, (st1, true, None). split; [exact G1|]. intros fuel Hf. cbn [inst].
      fold (inst_all fuel env nothing). rewrite E1 by exact Hf. reflexivity.
    + exists f1. eexists. split; [|intros fuel Hf; cbn [inst]; fold (inst_all fuel env nothing);
        rewrite E1 by exact Hf; reflexivity].
      eapply grows_trans; [exact G1|]. eexists. reflexivity.
  - destruct (inst_all_ends env nothing st0 es IH st errs G) as [f1 [[[st1 errs1] ts] [G1 E1]]]. cbn [fst] in G1.
    destruct (IHr st1 errs1 (grows_trans _ _ _ G G1)) as [f2 [[[st2 errs2] t] [G2 E2]]]. cbn [fst] in G2.
    destruct errs2.
    + exists (f1 + f2), (st2, true, None). split; [eapply grows_trans; eassumption|]. intros fuel Hf. cbn [inst].
      fold (inst_all fuel env nothing). rewrite E1 by lia. rewrite E2 by lia. reflexivity.
    + exists (f1 + f2). eexists. split; [|intros fuel Hf; cbn [inst]; fold (inst_all fuel env nothing);
        rewrite E1 by lia; rewrite E2 by lia; reflexivity].
      eapply grows_trans; [exact G1|]. eapply grows_trans; [exact G2|]. eexists. reflexivity.
  - destruct (IH st errs G) as [f1 [[[st1 errs1] t] [G1 E1]]]. cbn [fst] in G1. destruct errs1.
    + exists f1, (st1, true, None). split; [exact G1|]. intros fuel Hf. cbn [inst]. rewrite E1 by exact Hf. reflexivity.
    + exists f1. eexists. split; [|intros fuel Hf; cbn [inst]; rewrite E1 by exact Hf; reflexivity].
      eapply grows_trans; [exact G1|]. eexists. reflexivity.
Qed.
