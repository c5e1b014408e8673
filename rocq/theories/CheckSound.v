(** A program without errors and notes follows the rules (for C51). *)
From Coq Require Import String List Bool PeanoNat ZArith Lia.
From Verif Require Import TypeModel TypeSpec TypeProofs CheckModel CheckSpec.
Import ListNotations.
Local Open Scope nat_scope.
Local Open Scope list_scope.

(* -------------------------------------------------------------------------- arguments *)

(** An overloaded name is left with fewer overloads, also by a call that fails. *)
Definition narrow (a b : arg) : Prop :=
  b = a \/ (overloaded a = true /\ exists pre f t post, ar_chain a = pre ++ (f, t) :: post /\ b = Arg t ((f, t) :: post)).

Lemma narrow_trans : forall a b c, narrow a b -> narrow b c -> narrow a c.
Proof.
  intros a b c [->|(O & pre & f & t & post & E & ->)] N; auto.
  destruct N as [->|(O2 & pre2 & f2 & t2 & post2 & E2 & ->)]; [right; eauto 8|].
  right; split; auto. cbn in E2. destruct pre2 as [|p pre2]; cbn in E2.
  - injection E2 as <- <- <-. eauto 6.
  - injection E2 as <- ->. exists (pre ++ (f, t) :: pre2), f2, t2, post2; split; auto. rewrite E, <- app_assoc; auto.
Qed.
Lemma settled_narrow : forall a b, settled a b -> narrow a b.
Proof.
  intros a b; unfold settled. destruct (overloaded a) eqn:O; [|left; auto].
  intros (s & t & pre & post & A & B); right; eauto 8.
Qed.
Lemma narrows_refl : forall l, Forall2 narrow l l.
Proof. induction l; constructor; auto; left; auto. Qed.
Lemma narrows_trans : forall l m n, Forall2 narrow l m -> Forall2 narrow m n -> Forall2 narrow l n.
Proof. intros l m n A; revert n; induction A; intros k B; inversion B; subst; constructor; eauto using narrow_trans. Qed.
Lemma check_args_narrow : forall args params e args', TypeModel.check_args params args = (e, args') -> Forall2 narrow args args'.
Proof.
  induction args as [|a args IH]; intros params e args' E; cbn in E.
  - destruct params; cbn in E; injection E as <- <-; constructor.
  - destruct params as [|p params]; cbn in E; [injection E as <- <-; apply narrows_refl|].
    destruct (overloaded a) eqn:O.
    + destruct (choose (ar_chain a) p) as [a'|] eqn:C; [|injection E as <- <-; apply narrows_refl].
      destruct (TypeModel.check_args params args) as [e1 r] eqn:Q; injection E as <- <-; constructor; eauto.
      destruct (choose_settles _ _ _ C) as (s & t & pre & post & A & -> & _). right; eauto 8.
    + destruct (matches (ar_typ a) p); [|injection E as <- <-; apply narrows_refl].
      destruct (TypeModel.check_args params args) as [e1 r] eqn:Q; injection E as <- <-; constructor; eauto. left; auto.
Qed.
Lemma check_poly_narrow : forall args params b e args' b', check_poly_args params args b = (e, args', b') -> Forall2 narrow args args'.
Proof.
  induction args as [|a args IH]; intros params b e args' b' E; cbn in E.
  - destruct params; cbn in E; injection E as <- <- <-; constructor.
  - destruct params as [|p params]; cbn in E; [injection E as <- <- <-; apply narrows_refl|].
    destruct (overloaded a) eqn:O.
    + destruct (choose_poly (ar_chain a) p b) as [[a'|] b1] eqn:C; [|injection E as <- <- <-; apply narrows_refl].
      destruct (check_poly_args params args b1) as [[e1 r] b2] eqn:Q; injection E as <- <- <-; constructor; eauto.
      destruct (choose_poly_infers _ _ _ _ _ C) as (_ & _ & S). destruct (S _ eq_refl) as ((s & t & pre & post & A & ->) & _). right; eauto 8.
    + destruct (poly_match (ar_typ a) p b) as [ok b1]. destruct ok; [|injection E as <- <- <-; apply narrows_refl].
      destruct (check_poly_args params args b1) as [[e1 r] b2] eqn:Q; injection E as <- <- <-; constructor; eauto. left; auto.
Qed.
Lemma by_type_narrow : forall t ex args o args', match_by_type t ex args = (o, args') -> Forall2 narrow args args'.
Proof.
  intros t ex args o args'; unfold match_by_type. destruct t; try (intros [= <- <-]; apply narrows_refl).
  destruct (negb _); [intros [= <- <-]; apply narrows_refl|]. destruct (_ && _); [intros [= <- <-]; apply narrows_refl|].
  destruct (_ =? 0).
  - destruct (TypeModel.check_args params args) as [[e|] a] eqn:Q; intros [= <- <-]; eauto using check_args_narrow.
  - destruct (check_poly_args params args (bind_all types ex [])) as [[[e|] a] b] eqn:Q; [intros [= <- <-]; eauto using check_poly_narrow|].
    destruct (find_unbound t b); intros [= <- <-]; eauto using check_poly_narrow.
Qed.
(** The overload that is chosen accepts the arguments as they are left. *)
Lemma by_symbol : forall chain ex args f r args', match_by_symbol chain ex args = (inl (f, r), args') ->
  exists t mid, In (f, t) chain /\ Forall2 narrow args mid /\ match_by_type t ex mid = (Ok r, args').
Proof.
  induction chain as [|[s t] chain IH]; intros ex args f r args' E; cbn in E; [discriminate|].
  destruct (match_by_type t ex args) as [[u|e] a1] eqn:Q.
  - injection E as <- <- <-. exists t, args; cbn; repeat split; auto using narrows_refl.
  - destruct (match_by_symbol chain ex a1) as [[m|es] a2] eqn:Q2; [|discriminate]. injection E as -> <-.
    destruct (IH _ _ _ _ _ Q2) as (t' & mid & I & N & B). exists t', mid; cbn; repeat split; auto. eapply narrows_trans; eauto using by_type_narrow.
Qed.

(* ------------------------------------------------------------------------------ scopes *)

Definition agree (F : list frame) (C : ctx) : Prop := forall x t, in_frames F x = Some (LVar t) -> assoc x C = Some t.

Lemma assoc_app : forall {A} x (l m : list (string * A)), assoc x (l ++ m) = match assoc x l with Some a => Some a | None => assoc x m end.
Proof. intros A x; induction l as [|[y a] l IH]; intros m; cbn; auto. destruct (String.eqb x y); auto. Qed.
Lemma assoc_none : forall {A} x (l : list (string * A)), assoc x l = None <-> ~ In x (map fst l).
Proof.
  intros A x; induction l as [|[y a] l IH]; cbn; [tauto|]. destruct (String.eqb_spec x y); subst.
  - split; [discriminate|]. intros H; contradiction H; auto.
  - rewrite IH; split; [intros H [E|I]; [congruence|auto]|tauto].
Qed.
Lemma assoc_in : forall {A} x (l : list (string * A)) a, assoc x l = Some a -> In (x, a) l.
Proof. intros A x; induction l as [|[y b] l IH]; cbn; intros a; [discriminate|]. destruct (String.eqb_spec x y); [intros [= ->]; subst; auto|auto]. Qed.
Lemma in_assoc : forall {A} x (l : list (string * A)) a, NoDup (map fst l) -> In (x, a) l -> assoc x l = Some a.
Proof.
  intros A x; induction l as [|[y b] l IH]; cbn; intros a N I; [contradiction|]. inversion N as [|? ? N1 N2]; subst.
  destruct I as [[= -> ->]|I]; [now rewrite String.eqb_refl|]. destruct (String.eqb_spec x y); [subst|auto].
  contradiction N1. apply in_map_iff; exists (y, a); auto.
Qed.
Lemma declare_spec : forall l f F F', declare (f :: F) l = Some F' -> NoDup (map fst f) ->
  F' = (rev l ++ f) :: F /\ NoDup (map fst (rev l ++ f)).
Proof.
  induction l as [|[x e] l IH]; intros f F F' D N; cbn in D.
  - injection D as <-; auto.
  - destruct (assoc x f) eqn:A; [discriminate|]. apply assoc_none in A.
    destruct (IH _ _ _ D) as [-> N']; [constructor; auto|]. cbn [rev]. rewrite <- app_assoc; auto.
Qed.
Lemma nodup_front : forall {A} (l m : list A), NoDup (l ++ m) -> NoDup l.
Proof. induction l; cbn; intros m N; [constructor|]. inversion N; subst; constructor; [intros I; auto using in_or_app|eauto]. Qed.
Lemma declare_agree : forall F C ts ps F', agree F C -> declare ([] :: F) (fn_entries ts ps) = Some F' ->
  NoDup (map fst ps) /\ agree F' (ps ++ C).
Proof.
  intros F C ts ps F' A D. destruct (declare_spec _ _ _ _ D) as [-> N]; [constructor|].
  rewrite app_nil_r in *. unfold fn_entries in *. rewrite rev_app_distr, map_app in N.
  assert (NP : NoDup (map fst ps)).
  { apply nodup_front in N. rewrite map_rev, map_map in N. cbn in N. apply NoDup_rev in N. rewrite rev_involutive in N. exact N. }
  split; auto. intros x t. cbn [in_frames]. rewrite rev_app_distr, assoc_app.
  destruct (assoc x (rev (map (fun p : string * ty => (fst p, LVar (snd p))) ps))) as [e|] eqn:E.
  - intros [= ->]. apply assoc_in in E. apply in_rev in E. apply in_map_iff in E as ([y u] & [= -> ->] & I). rewrite assoc_app, (in_assoc _ _ _ NP I); auto.
  - rewrite assoc_app. replace (assoc x ps) with (@None ty).
    + destruct (assoc x (rev (map (fun p : string * nat => (fst p, LType (TParam (snd p)))) ts))) as [e|] eqn:E2; [|apply A].
      intros [= ->]. apply assoc_in in E2. apply in_rev in E2. apply in_map_iff in E2 as ([y u] & E2 & _); discriminate.
    + symmetry. apply assoc_none. apply assoc_none in E. rewrite map_rev, map_map in E. intros I; apply E. cbn. apply -> in_rev. auto.
Qed.
Lemma define_agree : forall F C x t F', agree F C -> define F x (LVar t) = Some F' -> agree F' ((x, t) :: C).
Proof.
  intros [|f F] C x t F' A D; cbn in D; [discriminate|]. destruct (assoc x f) eqn:E; [discriminate|]. injection D as <-.
  intros y u; cbn. destruct (String.eqb_spec y x); [intros [= ->]; auto|apply A].
Qed.
Lemma frame_agree : forall F C x t, agree F C -> agree ([(x, LVar t)] :: F) ((x, t) :: C).
Proof. intros F C x t A y u; cbn. destruct (String.eqb_spec y x); [intros [= ->]; auto|apply A]. Qed.
Lemma open_agree : forall F C, agree F C -> agree ([] :: F) C.
Proof. intros F C A y u; cbn. apply A. Qed.
Lemma case_agree : forall xs ts f fr, case_vars f xs ts = ([], fr) -> NoDup (map fst f) -> length xs = length ts ->
  fr = rev (combine xs (map LVar ts)) ++ f /\ NoDup (map fst fr).
Proof.
  induction xs as [|x xs IH]; intros [|t ts] f fr E N L; cbn in *; try discriminate.
  - injection E as <-; auto.
  - destruct (assoc x f) eqn:A; [destruct (case_vars f xs ts); discriminate|]. apply assoc_none in A.
    destruct (IH _ _ _ E) as [-> N']; [constructor; auto|lia|]. split; auto. rewrite <- app_assoc; auto.
Qed.
Lemma case_vars_agree : forall F C xs ts fr, agree F C -> case_vars [] xs ts = ([], fr) -> length xs = length ts ->
  NoDup xs /\ agree (fr :: F) (combine xs ts ++ C).
Proof.
  intros F C xs ts fr A E L. destruct (case_agree _ _ _ _ E) as [-> N]; [constructor|auto|]. rewrite app_nil_r in *.
  assert (X : forall us : list ty, length xs = length us -> map fst (combine xs us) = xs).
  { clear. induction xs; intros [|u us] L; cbn in *; try discriminate; f_equal; auto. }
  assert (X2 : map fst (combine xs (map LVar ts)) = xs).
  { clear - L. revert ts L. induction xs; intros [|u us] L; cbn in *; try discriminate; f_equal; auto. }
  assert (NX : NoDup xs) by (rewrite map_rev, X2 in N; apply NoDup_rev in N; rewrite rev_involutive in N; exact N).
  split; auto. intros x t; cbn [in_frames]. rewrite assoc_app.
  destruct (assoc x (rev (combine xs (map LVar ts)))) as [e|] eqn:Q.
  - intros [= ->]. apply assoc_in, in_rev in Q.
    assert (I : In (x, t) (combine xs ts)).
    { clear - Q. revert ts Q; induction xs as [|y xs IH]; intros [|u us] Q; cbn in *; try contradiction.
      destruct Q as [[= -> ->]|Q]; auto. }
    rewrite (in_assoc _ _ _ (eq_rect_r (fun l => NoDup l) NX (X _ L)) I); auto.
  - apply assoc_none in Q. rewrite map_rev, X2 in Q. replace (assoc x (combine xs ts)) with (@None ty); [apply A|].
    symmetry; apply assoc_none. rewrite X by auto. intros I; apply Q, in_rev; rewrite rev_involutive; auto.
Qed.
Lemma given_with : forall ps ts, NoDup ps -> forall p, given (bind_all ps ts []) p = with_types ps ts p.
Proof.
  assert (G : forall ps ts b, NoDup ps -> forall p, lookup (bind_all ps ts b) p =
    match (fix w ps ts := match ps, ts with q :: ps', t :: ts' => if q =? p then Some t else w ps' ts' | _, _ => None end) ps ts with Some t => Some t | None => lookup b p end).
  { induction ps as [|q ps IH]; intros [|t ts] b N p; cbn; auto. inversion N; subst. rewrite IH by auto. cbn.
    destruct (Nat.eqb_spec q p); [subst|destruct (_ ps ts); auto].
    assert (Z : forall ts, (fix w ps ts := match ps, ts with q :: ps', t :: ts' => if q =? p then Some t else w ps' ts' | _, _ => @None ty end) ps ts = None).
    { clear - H1. induction ps as [|q ps IH]; intros [|t ts]; cbn; auto. destruct (Nat.eqb_spec q p); [subst; contradiction H1; cbn; auto|].
      apply IH; intros I; apply H1; cbn; auto. }
    rewrite Z; auto. }
  intros ps ts N p; unfold given. rewrite G by auto. clear. revert ts. induction ps as [|q ps IH]; intros [|t ts]; cbn; auto.
  destruct (q =? p); auto.
Qed.

(* ------------------------------------------------------------------------------- walk *)

Section Sound.
Variable P : program.
Hypothesis D : declared_ok P.
Let G := p_env P.

Lemma names_ok : forall x first more, assoc x (g_names G) = Some (GFuns (first :: more)) ->
  (is_fun (snd first) = true -> known P first) /\ Forall (known P) more.
Proof. apply D. Qed.
Lemma types_ok : forall f d, nth_error (p_funs P) f = Some d -> NoDup (map snd (f_types d)).
Proof. apply D. Qed.
Lemma structs_ok : forall n ps fs, assoc n (g_structs G) = Some (ps, fs) -> NoDup ps.
Proof. apply D. Qed.
Lemma enums_ok : forall n ps ms, assoc n (g_enums G) = Some (ps, ms) -> NoDup ps /\ NoDup ms.
Proof. intros n ps ms H; destruct D as (_ & _ & _ & E & _); destruct (E _ _ _ H) as (A & B & _); auto. Qed.

Notation in_root := (known P).
Definition fun_in_root (ft : nat * ty) : Prop := is_fun (snd ft) = true -> in_root ft.
Lemma typed_root : forall C f t, in_root (f, t) -> typed P C (CFun f) t.
Proof. intros C f t (d & i & A & B); cbn in *; subst; econstructor; eauto. Qed.

(** What is known of an argument, and of the source of a call. *)
Definition arg_ok (C : ctx) (a : cexpr * arg) : Prop :=
  typed P C (fst a) (ar_typ (snd a)) /\
  (overloaded (snd a) = true -> Forall in_root (ar_chain (snd a)) /\ exists f more, ar_chain (snd a) = (f, ar_typ (snd a)) :: more).

Lemma settle_ok : forall C a b, arg_ok C a -> narrow (snd a) b -> typed P C (settle a b) (ar_typ b).
Proof.
  intros C [c a] b [T O] N; cbn in *. unfold settle; cbn. destruct (overloaded a) eqn:V.
  - destruct (O eq_refl) as [R (f & more & E)]. destruct N as [->|(_ & pre & f' & t' & post & E' & ->)].
    + rewrite E in *. apply typed_root. inversion R; auto.
    + cbn. apply typed_root. rewrite E', Forall_app in R. destruct R as [_ R]; inversion R; auto.
  - destruct N as [->|(X & _)]; [auto|congruence].
Qed.
Lemma settle_all_ok : forall C l after, Forall (arg_ok C) l -> Forall2 narrow (map snd l) after ->
  Forall2 (typed P C) (settle_all l after) (map ar_typ after).
Proof.
  intros C; induction l as [|a l IH]; intros after A N; inversion N; subst; cbn; constructor; inversion A; subst; auto using settle_ok.
Qed.

Lemma ident_ok : forall F C x b r, agree F C -> check_ident G F x b = ([], r) ->
  exists c t chain, r = Some (c, t, chain) /\ typed P C c t /\
    (chain = [] \/ (Forall in_root chain /\ exists f more, c = CFun f /\ chain = (f, t) :: more)).
Proof.
  intros F C x b r A E; unfold check_ident, resolve in E. destruct (in_frames F x) as [[t|t]|] eqn:I.
  - injection E as <-. exists (CVar x), t, []. repeat split; auto. constructor; auto.
  - discriminate.
  - destruct (assoc x (g_names G)) as [[chain|t]|] eqn:N; try discriminate. destruct chain as [|[f t] more]; [discriminate|].
    destruct (names_ok _ _ _ N) as [R1 R2].
    assert (Q : is_fun t = true /\ r = Some (CFun f, t, (f, t) :: more)) by (destruct (is_fun t); destruct more; try discriminate E; [|destruct b; try discriminate E|destruct b; discriminate E]; split; congruence).
    destruct Q as [Q0 Q]. assert (R : Forall in_root ((f, t) :: more)) by (constructor; auto).
    exists (CFun f), t, ((f, t) :: more). repeat split; auto.
    + apply typed_root; inversion R; auto.
    + right; split; auto. eauto.
Qed.

(** The source of a call. *)
Lemma source_ok : forall F C x r, agree F C ->
  match check_ident G F x true with (i, Some s) => (match snd s with _ :: _ :: _ => errors i | _ => i end, Some s) | r => r end = ([], r) ->
  exists c t chain, r = Some (c, t, chain) /\ (chain = [] -> typed P C c t) /\ Forall fun_in_root chain.
Proof.
  intros F C x r A E. destruct (check_ident G F x true) as [i [s|]] eqn:Q.
  - destruct i as [|i0 i].
    + destruct (ident_ok _ _ _ _ _ A Q) as (c & t & chain & [= ->] & T & R). assert (X : r = Some (c, t, chain)) by (destruct (snd (c, t, chain)) as [|? [|? ?]]; injection E; auto).
      exists c, t, chain. repeat split; auto. destruct R as [->|[R _]]; [constructor|]. eapply Forall_impl; [|exact R]. intros e K _; exact K.
    + unfold check_ident, resolve in Q. destruct (in_frames F x) as [[t|t]|]; try discriminate Q.
      { injection Q as <- <- <-. discriminate E. }
      destruct (assoc x (g_names G)) as [[chain|t]|] eqn:N; try discriminate Q.
      2:{ injection Q as <- <- <-. discriminate E. }
      destruct chain as [|[f t] more]; [discriminate|]. destruct (names_ok _ _ _ N) as [R1 R2].
      assert (Z : s = (CFun f, t, (f, t) :: more)) by (destruct more; injection Q; auto). subst s. injection E as _ <-. exists (CFun f), t, ((f, t) :: more).
      repeat split; [discriminate|]. constructor; auto. eapply Forall_impl; [|exact R2]. intros e K _; exact K.
  - injection E as -> <-. destruct (ident_ok _ _ _ _ _ A Q) as (c & t & chain & Z & _); discriminate Z.
Qed.

Definition expr_ok (F : list frame) (check : expr -> res) : Prop := forall C e r, agree F C -> check e = ([], r) ->
  exists c t, r = Some (c, t) /\ typed P C c t.

Lemma args_ok : forall F C check es r, expr_ok F check -> agree F C -> check_args G F check es = ([], r) ->
  exists l, r = Some l /\ Forall (arg_ok C) l.
Proof.
  intros F C check es r K A; revert r; induction es as [|e es IH]; intros res E; cbn [check_args] in E.
  - injection E as <-. exists []; auto.
  - match type of E with (match ?X with _ => _ end) = _ => destruct X as [ie r0] eqn:Q end.
    assert (Q2 : ie = [] -> exists a, r0 = Some a /\ arg_ok C a).
    { intros ->. assert (Z : forall r', check e = ([], r') -> exists c t, r' = Some (c, t) /\ typed P C c t) by (intros; eapply K; eauto).
      destruct e; try (destruct (check _) as [i9 [[c9 t9]|]]; injection Q as -> <-; destruct (Z _ eq_refl) as (c8 & t8 & Z1 & Z2); try discriminate;
        injection Z1 as <- <-; eexists; split; [reflexivity|]; split; [auto|discriminate]).
      destruct (check_ident G F x true) as [i [[[c t] chain]|]] eqn:I; injection Q as -> <-; destruct (ident_ok _ _ _ _ _ A I) as (c0 & t0 & ch & E0 & T & R); [|discriminate].
      injection E0 as <- <- <-. eexists; split; [reflexivity|]; split; cbn; auto.
      destruct R as [->|[R (f & more & -> & ->)]]; [discriminate|]. intros _; split; eauto. }
    destruct r0 as [a|].
    + destruct (check_args G F check es) as [i [l|]]; injection E as E <-; apply app_eq_nil in E as [-> ->];
        destruct (IH _ eq_refl) as (l0 & Z & W); [|discriminate]; injection Z as <-.
      destruct (Q2 eq_refl) as (a0 & [= <-] & Y). eauto.
    + injection E as -> <-. destruct (Q2 eq_refl) as (a & ? & _); discriminate.
Qed.

Lemma map_fst_typed : forall C l, Forall (arg_ok C) l -> Forall2 (typed P C) (map fst l) (map (fun a => ar_typ (snd a)) l).
Proof. induction 1 as [|a l [H _] _ IH]; cbn; constructor; auto. Qed.

Lemma forall2_map_r : forall {A B C} (R : A -> C -> Prop) (f : B -> C) l m, Forall2 R l (map f m) -> Forall2 (fun a b => R a (f b)) l m.
Proof. intros A B C R f l m; revert l; induction m as [|b m IH]; intros l H; inversion H; subst; constructor; auto. Qed.
Lemma forall2_map_l : forall {A B C} (R : C -> B -> Prop) (f : A -> C) l m, Forall2 (fun a b => R (f a) b) l m -> Forall2 R (map f l) m.
Proof. induction 1; cbn; constructor; auto. Qed.

Lemma resolve_call_ok : forall C name cf tf chain ts errs args r, Forall (arg_ok C) args -> (chain = [] -> typed P C cf tf) ->
  Forall fun_in_root chain -> resolve_call G name cf tf chain ts errs args = ([], r) -> exists c t, r = Some (c, t) /\ typed P C c t.
Proof.
  intros C name cf tf chain ts errs args r A T R E; unfold resolve_call in E.
  destruct (_ || _).
  { destruct (match chain with [] => _ | _ => _ end).
    - injection E as -> <-. eexists _, _; split; [reflexivity|]. econstructor. apply map_fst_typed; auto.
    - injection E as E _. apply app_eq_nil in E as [_ E]; discriminate. }
  destruct (name =? "unsafe")%string.
  { unfold fail in E. destruct args as [|? [|? [|[? ?] [|? ?]]]]; injection E as E _; apply app_eq_nil in E as [_ E]; discriminate. }
  destruct chain as [|ft chain].
  - destruct (match_by_type tf ts (map snd args)) as [[t|e] after] eqn:Q; [|unfold fail in E; injection E as E _; apply app_eq_nil in E as [_ E]; discriminate].
    injection E as E <-. apply app_eq_nil in E as [_ E]. destruct tf as [| |i g ps ret| | | | | | | |]; try (cbn in Q; discriminate).
    destruct g; [|discriminate]. destruct (accepted _ _ _ _ _ _ _ _ (NoDup_nil _) Q) as (_ & St & [(_ & -> & S)|(X & _)]); [|congruence].
    eexists _, _; split; [reflexivity|]. eapply typed_call; [exact (T eq_refl)| |].
    + apply settle_all_ok; auto. clear - St. induction St; constructor; auto using settled_narrow.
    + apply forall2_map_l; auto.
  - destruct (match_by_symbol (ft :: chain) ts (map snd args)) as [[[f t]|es] after] eqn:Q.
    2:{ destruct es as [|e [|? ?]]; unfold fail in E; injection E as E _; apply app_eq_nil in E as [_ E]; discriminate. }
    injection E as -> <-. apply by_symbol in Q as (t0 & mid & I & N & B).
    rewrite Forall_forall in R. assert (IF : is_fun t0 = true) by (destruct t0; try discriminate B; auto). destruct (R _ I IF) as (d & i & X & Y). cbn in X, Y; subst t0.
    destruct (call_sound _ _ _ _ _ _ _ _ (types_ok _ _ X) B) as (s & St & As & Rs & _).
    eexists _, _; split; [reflexivity|]. eapply typed_call_fun with (s := s); eauto.
    + apply settle_all_ok; auto. eapply narrows_trans; eauto. clear - St. induction St; constructor; auto using settled_narrow.
    + apply forall2_map_l. apply forall2_map_r in As. exact As.
Qed.

Lemma call_ok : forall F C check f ts first args r, expr_ok F check -> agree F C -> Forall (arg_ok C) first ->
  CheckModel.call G F check f ts first args = ([], r) -> exists c t, r = Some (c, t) /\ typed P C c t.
Proof.
  intros F C check f ts first args r K A FO E; unfold CheckModel.call in E. destruct (max_args <? _); [discriminate|].
  match type of E with (match ?X with _ => _ end) = _ => destruct X as [isrc src] eqn:Q end.
  assert (Q2 : isrc = [] -> exists c t chain, src = Some (c, t, chain) /\ (chain = [] -> typed P C c t) /\ Forall fun_in_root chain).
  { intros ->. assert (Z : forall r', check f = ([], r') -> exists c t, r' = Some (c, t) /\ typed P C c t) by (intros; eapply K; eauto).
    destruct f; try discriminate; try (destruct (check _) as [i9 [[c9 t9]|]]; injection Q as -> <-; destruct (Z _ eq_refl) as (c8 & t8 & Z1 & Z2); try discriminate;
        injection Z1 as <- <-; eexists _, _, _; repeat split; [auto|constructor]).
    apply (source_ok F C x src A Q). }
  destruct src as [[[cf tf] chain]|].
  - destruct (check_args G F check args) as [ia [l|]] eqn:CA.
    + assert (N : isrc ++ ia = []).
      { unfold resolve_call, fail in E. repeat match type of E with context [if ?b then _ else _] => destruct b end;
        repeat match type of E with context [match ?b with _ => _ end] => destruct b end;
        injection E as E _; repeat match goal with X : _ ++ _ = [] |- _ => apply app_eq_nil in X as [? ?] end; subst; auto; try discriminate. }
      apply app_eq_nil in N as [-> ->]. destruct (Q2 eq_refl) as (c & t & ch & [= <- <- <-] & T & R).
      destruct (args_ok _ _ _ _ _ K A CA) as (l0 & [= <-] & L). eapply resolve_call_ok; [|exact T|exact R|exact E].
      apply Forall_app; auto.
    + injection E as E <-; apply app_eq_nil in E as [-> ->]. destruct (args_ok _ _ _ _ _ K A CA) as (l0 & ? & L); discriminate.
  - injection E as -> <-. destruct (Q2 eq_refl) as (c & t & ch & ? & _); discriminate.
Qed.

(* -------------------------------------------------------------------------- statements *)

Fixpoint chain_ends (s : stmt) : bool :=
  match s with
  | SElse b => last_terminates b
  | SIf _ b (Some r) => last_terminates b && chain_ends r
  | _ => false
  end.
Definition ends (s : stmt) : bool := terminates s || chain_ends s.
Lemma ends_if : forall c b r, terminates (SIf c b (Some r)) = last_terminates b && chain_ends r.
Proof. reflexivity. Qed.
Lemma ends_match : forall e cases, terminates (SMatch e cases) = match cases with [] => false | _ => forallb (fun c => last_terminates (snd c)) cases end.
Proof.
  assert (X : forall l, (fix all (cs : list (string * list string * list stmt)) := match cs with [] => true | (_, _, b) :: r => last_terminates b && all r end) l
    = forallb (fun c => last_terminates (snd c)) l).
  { induction l as [|[[x xs] b] l IH]; cbn; auto. f_equal; auto. }
  intros e [|c cases]; [reflexivity|exact (X (c :: cases))].
Qed.

Definition stmt_ok (ret : ty) (check : list frame -> stmt -> list issue * list frame * cstmt) : Prop :=
  forall F C s F' k, agree F C -> check F s = ([], F', k) -> exists C1, ok P C ret k C1 /\ agree F' C1 /\ (ends s = true -> returns k).

Lemma block_ok : forall ret check, stmt_ok ret check -> forall ss F C ks, agree F C -> check_block check F ss = ([], ks) ->
  oks P C ret ks /\ (last_terminates ss = true -> Exists returns ks).
Proof.
  intros ret check H; induction ss as [|s ss IH]; intros F C ks A E; cbn [check_block] in E.
  - injection E as <-. split; [constructor|discriminate].
  - destruct (check F s) as [[i F'] k] eqn:Q. destruct (check_block check F' ss) as [i' ks'] eqn:Q2. injection E as E <-.
    apply app_eq_nil in E as [-> ->]. destruct (H _ _ _ _ _ A Q) as (C1 & O & A1 & T). destruct (IH _ _ _ A1 Q2) as [O2 T2].
    split; [econstructor; eauto|]. destruct ss as [|s' ss].
    + cbn. intros L; left; apply T. unfold ends; rewrite L; auto.
    + right; apply T2; auto.
Qed.

Lemma member_nth : forall ms f tag, member ms f = Some tag -> nth_error ms tag = Some f.
Proof.
  induction ms as [|m ms IH]; cbn; intros f tag H; [discriminate|]. destruct (Nat.eqb_spec m f); [injection H as <-; subst; auto|].
  destruct (member ms f) as [i|] eqn:E; [|discriminate]. injection H as <-; cbn; auto.
Qed.

Lemma cases_ok : forall ret C F b ps ts ms block, agree F C ->
  (forall F C ss ks, agree F C -> block F ss = ([], ks) -> oks P C ret ks /\ (last_terminates ss = true -> Exists returns ks)) ->
  (forall p, given b p = with_types ps ts p) ->
  forall cases seen ks, check_cases G F block b ms seen cases = ([], ks) ->
  Forall (ok_case P C ret ps ts ms) ks /\ length ks = length cases /\
  Forall (fun c => exists f, nth_error ms (fst (fst c)) = Some f /\ ~ In f seen) ks /\ NoDup (map (fun c => fst (fst c)) ks) /\
  (forallb (fun c => last_terminates (snd c)) cases = true -> Forall (fun c : nat * list string * list cstmt => Exists returns (snd c)) ks).
Proof.
  intros ret C F b ps ts ms block A B W; induction cases as [|[[x xs] body] cases IH]; intros seen ks E; cbn [check_cases] in E.
  - injection E as <-. repeat split; constructor.
  - match type of E with (match ?X with _ => _ end) = _ => destruct X as [[[f qs] notes]|] eqn:CO end.
    2:{ destruct (check_cases _ _ _ _ _ _ _); discriminate. }
    match type of E with (match ?X with _ => _ end) = _ => destruct X as [ibody kbody] eqn:Q end.
    destruct (member ms f) as [tag|] eqn:MB.
    2:{ destruct (check_cases _ _ _ _ _ _ _); injection E as E _; apply app_eq_nil in E as [_ E]; apply app_eq_nil in E as [_ E]; discriminate. }
    destruct (existsb (Nat.eqb f) seen) eqn:SE.
    { destruct (check_cases _ _ _ _ _ _ _); injection E as E _; apply app_eq_nil in E as [_ E]; apply app_eq_nil in E as [_ E]; discriminate. }
    destruct (check_cases _ _ _ _ _ _ _) as [i cs] eqn:Q2. injection E as E <-. apply app_eq_nil in E as [-> E]. apply app_eq_nil in E as [-> ->].
    destruct (IH _ _ Q2) as (I1 & I2 & I3 & I4 & I5).
    assert (CD : exists d, nth_error (p_funs P) f = Some d /\ qs = map snd (f_params d)).
    { unfold resolve in CO. destruct (in_frames F x) as [[t|t]|].
      - destruct t; try discriminate. destruct (is_cons G info); discriminate.
      - discriminate.
      - destruct (assoc x (g_names G)) as [[chain|t]|] eqn:N; try discriminate. destruct chain as [|[g t] chain]; [discriminate|].
        destruct t; try discriminate. destruct (is_cons G g); [|discriminate]. injection CO as -> ->.
        destruct (names_ok _ _ _ N) as [KN _]. destruct (KN eq_refl) as (d & i & X & Y). injection Y as -> -> -> ->. eauto. }
    destruct CD as (d & ND & ->).
    destruct (Nat.eqb_spec (length (map snd (f_params d))) (length xs)) as [L|L]; cbn [negb] in Q; [|discriminate].
    destruct (case_vars [] xs _) as [iv fr] eqn:CV. destruct (block (fr :: F) body) as [ib kb] eqn:Q3. injection Q as Q <-.
    apply app_eq_nil in Q as [-> ->].
    assert (LL : length xs = length (map (fun p => subst p b) (map snd (f_params d)))) by (rewrite map_length; auto).
    destruct (case_vars_agree _ _ _ _ _ A CV LL) as [NX AG].
    destruct (B _ _ _ _ AG Q3) as [O T]. pose proof (member_nth _ _ _ MB) as MN.
    repeat split.
    + constructor; auto. econstructor; eauto.
      clear - W. induction (f_params d) as [|p l IH]; cbn; constructor; auto.
      eapply same_trans; [apply subst_same|]. rewrite (apply_ext (given b) (with_types ps ts)); [apply same_refl|auto].
    + cbn; auto.
    + constructor.
      * cbn. exists f; split; auto. intros I. rewrite <- not_true_iff_false in SE; apply SE. apply existsb_exists; exists f; split; auto. apply Nat.eqb_refl.
      * eapply Forall_impl; [|exact I3]. cbn. intros c (g & X & Y); exists g; split; auto.
    + cbn. constructor; auto. intros I. apply in_map_iff in I as (c & <- & I). rewrite Forall_forall in I3. destruct (I3 _ I) as (g & X & Y).
      apply Y; left; congruence.
    + cbn. intros T'; apply andb_true_iff in T' as [T1 T2]. constructor; auto.
Qed.
Lemma covers : forall (ms : list nat) (tags : list nat), NoDup tags -> length tags = length ms ->
  Forall (fun t => t < length ms) tags -> forall t, t < length ms -> In t tags.
Proof.
  intros ms tags N L F t T. assert (I : incl (seq 0 (length ms)) tags).
  { apply NoDup_length_incl; auto; [rewrite seq_length; lia|]. intros x X. rewrite Forall_forall in F. apply in_seq. specialize (F _ X); lia. }
  apply I, in_seq; lia.
Qed.
Lemma drop_nil : forall l, drop_errors l = [] -> l = [].
Proof. intros l; unfold drop_errors. destruct (errors l); [auto|discriminate]. Qed.
Lemma is_int_eq : forall t, is_int t = true -> t = TInt.
Proof. destruct t; discriminate || reflexivity. Qed.
Lemma is_bool_eq : forall t, is_bool t = true -> t = TBool.
Proof. destruct t; discriminate || reflexivity. Qed.
Lemma array_ok : forall F C check, expr_ok F check -> agree F C -> forall es first r, array_lit check first es = ([], r) ->
  exists cs ts f, r = Some (cs, f) /\ Forall2 (typed P C) cs ts /\
    match first with Some t => f = Some t /\ Forall (fun u => same u t) ts | None => match es with [] => True | _ => exists t, f = Some t /\ Forall (fun u => same u t) ts end end.
Proof.
  intros F C check K A; induction es as [|e es IH]; intros first r E; cbn [array_lit] in E.
  - injection E as <-. exists [], [], first; repeat split; auto. destruct first; auto.
  - destruct (check e) as [ie [[c t]|]] eqn:Q.
    2:{ injection E as -> <-. destruct (K _ _ _ A Q) as (? & ? & ? & _); discriminate. }
    set (t0 := match first with Some t0 => t0 | None => t end) in *.
    destruct (matches t t0) eqn:M; cbn [negb] in E.
    2:{ injection E as E _. apply app_eq_nil in E as [_ E]; discriminate. }
    assert (Z : drop_errors ie = [] /\ exists r', array_lit check (Some t0) es = ([], r')).
    { destruct (array_lit check (Some t0) es) as [i [[cs f]|]]; injection E as E _; apply app_eq_nil in E as [-> ->]; eauto. }
    destruct Z as [Z (r' & Z2)]. apply drop_nil in Z; subst ie. destruct (K _ _ _ A Q) as (c1 & t1 & [= <- <-] & T).
    destruct (IH _ _ Z2) as (cs & ts & f & -> & T2 & -> & S). rewrite Z2 in E. injection E as <-.
    apply matches_same in M. exists (c :: cs), (t :: ts), (Some t0); repeat split; auto.
    subst t0. destruct first; [split; auto|exists t; split; auto].
Qed.

Ltac nil E := apply app_eq_nil in E as [? E].
Ltac bad E := exfalso; unfold fail in E; injection E as E; repeat (apply app_eq_nil in E; destruct E as [_ E]); discriminate E.

Lemma binary_ok : forall C valid t mk rl rr r, binary valid t mk rl rr = ([], r) ->
  (forall r', rl = ([], r') -> exists c u, r' = Some (c, u) /\ typed P C c u) ->
  (forall r', rr = ([], r') -> exists c u, r' = Some (c, u) /\ typed P C c u) ->
  exists cl tl cr tr, r = Some (mk cl cr, t) /\ typed P C cl tl /\ typed P C cr tr /\ valid tl = true /\ valid tr = true /\ same tl tr.
Proof.
  intros C valid t mk [il [[cl tl]|]] [ir [[cr tr]|]] r E L R; unfold binary, fail in E; cbn [fst snd] in E.
  - destruct (valid tl) eqn:V1; cbn [negb] in E; [|bad E]. destruct (valid tr) eqn:V2; cbn [negb] in E; [|bad E].
    injection E as E <-. apply app_eq_nil in E as [E M]. apply app_eq_nil in E as [-> ->].
    destruct (matches tl tr) eqn:Q; [|discriminate]. apply matches_same in Q.
    destruct (L _ eq_refl) as (? & ? & [= <- <-] & ?). destruct (R _ eq_refl) as (? & ? & [= <- <-] & ?). eauto 12.
  - injection E as E <-. apply app_eq_nil in E as [-> ->]. destruct (R _ eq_refl) as (? & ? & ? & ?); discriminate.
  - injection E as E <-. apply app_eq_nil in E as [-> ->]. destruct (L _ eq_refl) as (? & ? & ? & ?); discriminate.
  - injection E as E <-. apply app_eq_nil in E as [-> ->]. destruct (L _ eq_refl) as (? & ? & ? & ?); discriminate.
Qed.
Lemma unary_ok : forall C valid t mk r0 r, unary valid t mk r0 = ([], r) ->
  (forall r', r0 = ([], r') -> exists c u, r' = Some (c, u) /\ typed P C c u) ->
  exists c u, r = Some (mk c, t) /\ typed P C c u /\ valid u = true.
Proof.
  intros C valid t mk [i [[c u]|]] r E L; unfold unary, fail in E; cbn [fst snd] in E.
  - destruct (valid u) eqn:V; [|bad E]. injection E as -> <-. destruct (L _ eq_refl) as (? & ? & [= <- <-] & ?). eauto.
  - injection E as -> <-. destruct (L _ eq_refl) as (? & ? & ? & ?); discriminate.
Qed.
Lemma field_typed : forall C cl d n ts x t, typed P C cl (TStruct d n ts) -> field_type G n ts x = Some t -> typed P C (CField cl n x) t.
Proof.
  intros C cl d n ts x t T E; unfold field_type in E. destruct (assoc n (g_structs G)) as [[ps fs]|] eqn:A; [|discriminate].
  destruct (assoc x fs) as [t0|] eqn:B; [|discriminate]. injection E as <-. econstructor; eauto.
  eapply same_trans; [apply subst_same|]. rewrite (apply_ext _ (with_types ps ts)); [apply same_refl|]. intros p _. apply given_with. eapply structs_ok; eauto.
Qed.
Lemma select_ok : forall C errs cl tl x r, select G errs cl tl x = ([], r) -> typed P C cl tl -> exists c t, r = Some (c, t) /\ typed P C c t.
Proof.
  intros C errs cl tl x r E T; unfold select, fail in E. destruct tl as [d n ts|d n ts|i g ps ret| | | | | | |e|p]; try bad E.
  - destruct (field_type G n ts x) as [t|] eqn:F; [|bad E]. injection E as _ <-. eexists _, _; split; [reflexivity|]. eapply field_typed; eauto.
  - destruct ret; try bad E. destruct (is_call cl); [|bad E]. destruct (field_type _ _ _ _); bad E.
  - destruct (x =? "length")%string; [|bad E]. injection E as _ <-. eexists _, _; split; [reflexivity|]. apply typed_length_str; auto.
  - destruct (x =? "deref")%string; bad E.
  - destruct (x =? "length")%string; [|bad E]. injection E as _ <-. eexists _, _; split; [reflexivity|]. eapply typed_length_arr; eauto.
Qed.
Lemma select_errs : forall errs cl tl x r, select G errs cl tl x = ([], r) -> errs = [].
Proof.
  intros errs cl tl x r E; unfold select, fail in E.
  repeat match type of E with (match ?b with _ => _ end) = _ => destruct b end; injection E as E; repeat (apply app_eq_nil in E; destruct E as [E ?]); auto.
Qed.

Theorem walk_ok : forall n, (forall F, expr_ok F (check_expr n G F)) /\ (forall ret, stmt_ok ret (fun F s => check_stmt n G F ret s)).
Proof.
  induction n as [|n [IE IS]]; [split; repeat intro; discriminate|].
  assert (IB : forall ret F C ss ks, agree F C -> check_block (fun F s => check_stmt n G F ret s) F ss = ([], ks) ->
            oks P C ret ks /\ (last_terminates ss = true -> Exists returns ks)) by (intros; eapply block_ok; eauto).
  split.
  - intros F C e r A E.
    assert (IX : forall e r', check_expr n G F e = ([], r') -> exists c u, r' = Some (c, u) /\ typed P C c u) by (intros; eapply IE; eauto).
    destruct e; simpl check_expr in E.
    + injection E as <-. eexists _, _; split; [reflexivity|]. destruct l; constructor.
    + destruct (check_ident G F x false) as [i [[[c t] ch]|]] eqn:Q; injection E as -> <-; destruct (ident_ok _ _ _ _ _ A Q) as (c0 & t0 & ch0 & Z & T & _); [|discriminate].
      injection Z as <- <- <-; eauto.
    + destruct (binary_ok C _ _ _ _ _ _ E) as (cl & tl & cr & tr & -> & T1 & T2 & V1 & V2 & _); eauto.
      apply is_int_eq in V1, V2; subst. eexists _, _; split; [reflexivity|]. constructor; auto.
    + destruct (binary_ok C _ _ _ _ _ _ E) as (cl & tl & cr & tr & -> & T1 & T2 & V1 & V2 & _); eauto.
      apply is_bool_eq in V1, V2; subst. eexists _, _; split; [reflexivity|]. constructor; auto.
    + unfold comparison, fail in E. destruct (check_expr n G F e1) as [il [[cl tl]|]] eqn:Q1; destruct (check_expr n G F e2) as [ir [[cr tr]|]] eqn:Q2; cbn [fst snd] in E;
        try (injection E as E <-; apply app_eq_nil in E as [-> ->]; first [destruct (IX _ _ Q1) as (? & ? & ? & ?); discriminate | destruct (IX _ _ Q2) as (? & ? & ? & ?); discriminate]).
      destruct (matches tl tr) eqn:M; cbn [negb] in E; [|bad E]. injection E as E <-. apply app_eq_nil in E as [E NI]. apply app_eq_nil in E as [-> ->].
      destruct (is_int tl) eqn:V; [|discriminate]. apply is_int_eq in V; subst. apply matches_same in M; inversion M; subst.
      destruct (IX _ _ Q1) as (? & ? & [= <- <-] & ?). destruct (IX _ _ Q2) as (? & ? & [= <- <-] & ?).
      eexists _, _; split; [reflexivity|]. constructor; auto.
    + destruct (unary_ok C _ _ _ _ _ E) as (c & u & -> & T & V); eauto. apply is_bool_eq in V; subst. eexists _, _; split; [reflexivity|]. constructor; auto.
    + destruct (unary_ok C _ _ _ _ _ E) as (c & u & -> & T & V); eauto. apply is_int_eq in V; subst. eexists _, _; split; [reflexivity|]. constructor; auto.
    + destruct (unary_ok C _ _ _ _ _ E) as (c & u & -> & T & V); eauto. apply is_int_eq in V; subst. eexists _, _; split; [reflexivity|]. constructor; auto.
    + eapply call_ok; eauto.
    + (* dot *)
      destruct (check_expr n G F e1) as [il [[cl tl]|]] eqn:Q.
      2:{ injection E as -> <-. destruct (IX _ _ Q) as (? & ? & ? & ?); discriminate. }
      assert (T : il = [] -> typed P C cl tl) by (intros ->; destruct (IX _ _ Q) as (? & ? & [= <- <-] & ?); auto).
      destruct e2; try bad E.
      * eapply select_ok; eauto. apply T. eapply select_errs; eauto.
      * match type of E with (match ?X with _ => _ end) = _ => destruct X as [i r'] eqn:Q2 end. injection E as E <-. apply app_eq_nil in E as [-> ->].
        destruct (has_field G tl (name_of e2)); [eauto|]. eapply call_ok; [exact (IE F)|exact A| |exact Q2].
        constructor; [|constructor]. split; cbn; [auto|discriminate].
      * destruct (check_expr n G F (EIndex _ _)) as [i r'] eqn:Q2. injection E as E <-. apply app_eq_nil in E as [-> ->]. eauto.
    + unfold index, fail in E. destruct (check_expr n G F e1) as [il [[cl tl]|]] eqn:Q1; destruct (check_expr n G F e2) as [ir [[cr tr]|]] eqn:Q2; cbn [fst snd] in E;
        try (injection E as E <-; apply app_eq_nil in E as [-> ->]; first [destruct (IX _ _ Q1) as (? & ? & ? & ?); discriminate | destruct (IX _ _ Q2) as (? & ? & ? & ?); discriminate]).
      destruct (is_int tr) eqn:V; cbn [negb] in E; [|bad E]. apply is_int_eq in V; subst. destruct tl; try bad E. injection E as E <-. apply app_eq_nil in E as [-> ->].
      destruct (IX _ _ Q1) as (? & ? & [= <- <-] & ?). destruct (IX _ _ Q2) as (? & ? & [= <- <-] & ?).
      eexists _, _; split; [reflexivity|]. constructor; auto.
    + destruct es as [|e es]; [discriminate|]. destruct (array_lit (check_expr n G F) None (e :: es)) as [i r'] eqn:Q.
      assert (i = []) by (destruct r' as [[cs [t|]]|]; congruence). subst i.
      destruct (array_ok _ _ _ (IE F) A _ _ _ Q) as (cs & ts & f & -> & T & t & -> & S). injection E as <-.
      eexists _, _; split; [reflexivity|]. econstructor; eauto.
    + (* ternary *)
      unfold ternary, fail in E. destruct (check_expr n G F e1) as [ic [[cc tc]|]] eqn:Q1.
      2:{ injection E as -> <-. destruct (IX _ _ Q1) as (? & ? & ? & ?); discriminate. }
      destruct (is_bool tc) eqn:V; cbn [negb] in E; [|bad E]. apply is_bool_eq in V; subst.
      destruct (check_expr n G F e2) as [ia [[ca ta]|]] eqn:Q2.
      2:{ injection E as E <-. apply app_eq_nil in E as [_ ->]. destruct (IX _ _ Q2) as (? & ? & ? & ?); discriminate. }
      destruct (check_expr n G F e3) as [ib [[cb tb]|]] eqn:Q3.
      2:{ injection E as E <-. apply app_eq_nil in E as [_ E]. apply app_eq_nil in E as [_ ->]. destruct (IX _ _ Q3) as (? & ? & ? & ?); discriminate. }
      destruct (matches ta tb) eqn:M; cbn [negb] in E; [|bad E]. injection E as E <-. apply app_eq_nil in E as [D1 E]. apply app_eq_nil in E as [D2 D3].
      apply drop_nil in D1, D2, D3; subst. apply matches_same in M.
      destruct (IX _ _ Q1) as (? & ? & [= <- <-] & ?). destruct (IX _ _ Q2) as (? & ? & [= <- <-] & ?). destruct (IX _ _ Q3) as (? & ? & [= <- <-] & ?).
      eexists _, _; split; [reflexivity|]. econstructor; eauto.
    + destruct (declare ([] :: F) (fn_entries ts ps)) as [F'|] eqn:Q; [|discriminate]. destruct (declare_agree _ _ _ _ _ A Q) as [N A'].
      destruct (negb (is_nothing ret) && negb (last_terminates body)) eqn:V; [discriminate|].
      destruct (check_block _ F' body) as [i ks] eqn:B. injection E as -> <-. destruct (IB _ _ _ _ _ A' B) as [O T].
      eexists _, _; split; [reflexivity|]. econstructor; eauto. destruct (last_terminates body); [right; auto|left]. destruct ret; try discriminate; auto.
    + destruct (declare ([] :: F) (fn_entries ts ps)) as [F'|] eqn:Q; [|discriminate]. destruct (declare_agree _ _ _ _ _ A Q) as [N A'].
      destruct (check_expr n G F' e) as [i [[c t]|]] eqn:B; injection E as E <-.
      * apply app_eq_nil in E as [-> M]. destruct (matches ret t) eqn:Z; [|discriminate]. apply matches_same in Z.
        destruct (IE _ _ _ _ A' B) as (? & ? & [= <- <-] & ?). eexists _, _; split; [reflexivity|]. econstructor; eauto.
      * subst i. destruct (IE _ _ _ _ A' B) as (? & ? & ? & ?); discriminate.
    + discriminate.
  - intros ret F C s F' k A E.
    assert (IX : forall e r', check_expr n G F e = ([], r') -> exists c u, r' = Some (c, u) /\ typed P C c u) by (intros; eapply IE; eauto).
    destruct s; simpl check_stmt in E.
    + destruct (check_expr n G F e) as [i [[c t]|]] eqn:Q; injection E as -> <- <-; destruct (IX _ _ Q) as (c0 & t0 & Z & T); [|discriminate].
      injection Z as <- <-. eexists; repeat split; [econstructor; eauto|auto|discriminate].
    + destruct (check_expr n G F r) as [i [[c t]|]] eqn:Q.
      2:{ injection E as -> <- <-. destruct (IX _ _ Q) as (? & ? & ? & ?); discriminate. }
      destruct l; try bad E. destruct (define F x (LVar t)) as [F1|] eqn:DF; [|bad E]. injection E as -> <- <-.
      destruct (IX _ _ Q) as (? & ? & [= <- <-] & ?). eexists; repeat split; [econstructor; eauto|eapply define_agree; eauto|discriminate].
    + destruct (check_expr n G F r) as [ir [[cr tr]|]] eqn:Q1; destruct (check_expr n G F l) as [il [[cl tl]|]] eqn:Q2; cbn [fst snd] in E;
        try (injection E as E <- <-; apply app_eq_nil in E as [-> ->]; first [destruct (IX _ _ Q1) as (? & ? & ? & ?); discriminate | destruct (IX _ _ Q2) as (? & ? & ? & ?); discriminate]).
      destruct (assignment (ir ++ il) cl tl cr tr) as [i k'] eqn:Q3. injection E as -> <- <-.
      assert (Z : ir ++ il = [] /\ k' = KAs cl cr /\ matches tl tr = true /\ match cl with CVar _ | CField _ _ _ | CIndex _ _ | CType _ | CDeref _ => True | _ => False end).
      { unfold assignment in Q3. destruct cl; try (destruct named); try (destruct tl); try bad Q3;
          destruct (matches _ tr); try bad Q3; injection Q3 as Q3 <-; apply app_eq_nil in Q3 as [Q3 Q4]; try discriminate; auto. }
      destruct Z as (Z & -> & M & PL). apply app_eq_nil in Z as [-> ->]. apply matches_same in M.
      destruct (IX _ _ Q1) as (? & ? & [= <- <-] & ?). destruct (IX _ _ Q2) as (? & ? & [= <- <-] & TL).
      eexists; repeat split; [econstructor; eauto|auto|discriminate]. destruct cl; cbn; auto; inversion TL.
    + destruct (check_expr n G F c) as [i [[cc tc]|]] eqn:Q.
      2:{ injection E as -> <- <-. destruct (IX _ _ Q) as (? & ? & ? & ?); discriminate. }
      destruct (is_bool tc) eqn:V; cbn [negb] in E; [|bad E]. apply is_bool_eq in V; subst.
      destruct (check_block _ ([] :: F) body) as [ib ks] eqn:B. injection E as E <- <-. apply app_eq_nil in E as [-> ->].
      destruct (IX _ _ Q) as (? & ? & [= <- <-] & ?). destruct (IB _ _ _ _ _ (open_agree _ _ A) B) as [O T].
      eexists; repeat split; [econstructor; eauto|auto|discriminate].
    + destruct (check_expr n G F e) as [i [[c t]|]] eqn:Q.
      2:{ injection E as -> <- <-. destruct (IX _ _ Q) as (? & ? & ? & ?); discriminate. }
      destruct t as [| | | | | | | | |u|]; try bad E.
      destruct (check_block _ _ body) as [ib ks] eqn:B. injection E as E <- <-. apply app_eq_nil in E as [-> ->].
      destruct (IX _ _ Q) as (? & ? & [= <- <-] & ?). destruct (IB _ _ _ _ _ (frame_agree _ _ x u A) B) as [O T].
      eexists; repeat split; [econstructor; eauto|auto|discriminate].
    + destruct (binary is_int TInt (CArith OAdd) (check_expr n G F a) (check_expr n G F b)) as [i r'] eqn:Q.
      assert (i = []) by (destruct r' as [[[] ?]|]; try congruence; destruct (check_block _ _ body); injection E as E _ _; apply app_eq_nil in E as [-> _]; auto). subst i.
      destruct (binary_ok C _ _ _ _ _ _ Q) as (cl & tl & cr & tr & -> & T1 & T2 & V1 & V2 & _); eauto. apply is_int_eq in V1, V2; subst.
      destruct (check_block _ _ body) as [ib ks] eqn:B. injection E as -> <- <-.
      destruct (IB _ _ _ _ _ (frame_agree _ _ x TInt A) B) as [O T].
      eexists; repeat split; [econstructor; eauto|auto|discriminate].
    + destruct (check_expr n G F c) as [i [[cc tc]|]] eqn:Q.
      2:{ injection E as -> <- <-. destruct (IX _ _ Q) as (? & ? & ? & ?); discriminate. }
      destruct (is_bool tc) eqn:V; cbn [negb] in E; [|bad E]. apply is_bool_eq in V; subst.
      destruct (check_block _ ([] :: F) body) as [ib ks] eqn:B. destruct rest as [s|].
      * destruct (check_stmt n G F ret s) as [[ir Fr] kr] eqn:Q2. injection E as E <- <-. apply app_eq_nil in E as [-> E]. apply app_eq_nil in E as [-> ->].
        destruct (IX _ _ Q) as (? & ? & [= <- <-] & ?). destruct (IB _ _ _ _ _ (open_agree _ _ A) B) as [O T].
        destruct (IS _ _ _ _ _ _ A Q2) as (C1 & O1 & A1 & T1).
        eexists; repeat split; [econstructor; eauto|auto|]. unfold ends. rewrite ends_if. cbn [chain_ends].
        rewrite orb_diag. intros Z; apply andb_true_iff in Z as [Z1 Z2]. constructor; auto. apply T1. unfold ends. rewrite Z2, orb_true_r; auto.
      * injection E as E <- <-. apply app_eq_nil in E as [-> ->].
        destruct (IX _ _ Q) as (? & ? & [= <- <-] & ?). destruct (IB _ _ _ _ _ (open_agree _ _ A) B) as [O T].
        eexists; repeat split; [econstructor; eauto|auto|discriminate].
    + destruct (check_block _ ([] :: F) body) as [ib ks] eqn:B. injection E as -> <- <-. destruct (IB _ _ _ _ _ (open_agree _ _ A) B) as [O T].
      eexists; repeat split; [econstructor; eauto|auto|]. unfold ends; cbn. intros Z; constructor; auto.
    + destruct e as [e|].
      * destruct (check_expr n G F e) as [i [[c t]|]] eqn:Q.
        2:{ injection E as -> <- <-. destruct (IX _ _ Q) as (? & ? & ? & ?); discriminate. }
        destruct (matches ret t) eqn:M; [|bad E]. injection E as -> <- <-. apply matches_same in M.
        destruct (IX _ _ Q) as (? & ? & [= <- <-] & ?). eexists; repeat split; [econstructor; eauto|auto|constructor].
      * destruct (matches ret TNothing) eqn:M; [|discriminate]. injection E as <- <-. apply matches_same in M.
        eexists; repeat split; [econstructor; eauto|auto|constructor].
    + (* match *)
      destruct (check_expr n G F e) as [i [[c t]|]] eqn:Q.
      2:{ injection E as -> <- <-. destruct (IX _ _ Q) as (? & ? & ? & ?); discriminate. }
      destruct t as [|d en ts| | | | | | | | |]; try bad E. destruct (assoc en (g_enums G)) as [[ps ms]|] eqn:AE; [|bad E].
      destruct (check_cases _ _ _ _ _ _ _) as [ic ks] eqn:B. destruct (errors (i ++ ic)) eqn:ER.
      2:{ injection E as E _ _. rewrite E in ER; discriminate. }
      destruct (Nat.eqb_spec (length cases) (length ms)) as [L|L]; [|bad E]. injection E as E <- <-. apply app_eq_nil in E as [-> ->].
      destruct (IX _ _ Q) as (? & ? & [= <- <-] & ?). destruct (enums_ok _ _ _ AE) as [N1 N2].
      eapply cases_ok with (C := C) (ret := ret) (ps := ps) (ts := ts) in B; eauto.
      * destruct B as (B1 & B2 & B3 & B4 & B5). eexists; repeat split; [econstructor; eauto|auto|].
        -- apply covers; auto; [rewrite map_length; lia|]. apply Forall_forall. intros t I. apply in_map_iff in I as (x & <- & I).
           rewrite Forall_forall in B3. destruct (B3 _ I) as (f & X & _). apply nth_error_Some; congruence.
        -- unfold ends. rewrite ends_match. cbn [chain_ends]. rewrite orb_false_r. destruct cases; [discriminate|]. intros Z. constructor; auto.
      * intros p. destruct ts; [destruct ps; reflexivity|]. apply given_with; auto.
Qed.

Lemma nothing_agree : agree [] [].
Proof. intros x t; discriminate. Qed.

Lemma fun_checked : forall n f d b, nth_error (p_funs P) f = Some d -> check_fun n G d = ([], b) -> fun_ok P f d b /\ own_types_only d b.
Proof.
  intros n f d b N E; unfold check_fun in E. destruct (walk_ok n) as [WE WS].
  destruct D as (_ & _ & _ & _ & D5). specialize (D5 _ _ N). pose proof (types_ok _ _ N) as NT.
  assert (DA : forall F, declare [[]] (fn_entries (f_types d) (f_params d)) = Some F -> NoDup (map fst (f_params d)) /\ agree F (f_params d)).
  { intros F DC. destruct (declare_agree [] [] _ _ _ nothing_agree DC) as [ND A]. rewrite app_nil_r in A. auto. }
  destruct (declare [[]] (fn_entries (f_types d) (f_params d))) as [F|] eqn:DC.
  2:{ destruct (f_body d); try discriminate E; injection E as <-; destruct D5 as (i & fs & X1 & X2 & X3 & X4); split; cbn; eauto 7. }
  destruct (DA F eq_refl) as [ND A]. destruct (f_body d) as [body|e|s|s tag|].
  - destruct (negb (is_nothing (f_ret d)) && negb (last_terminates body)) eqn:V; [discriminate|].
    destruct (check_block _ F body) as [i ks] eqn:B. injection E as -> <-. destruct (block_ok _ _ (WS (f_ret d)) _ _ _ _ A B) as [O T].
    split; cbn; auto. repeat split; auto. destruct (last_terminates body); [right; auto|left]. destruct (f_ret d); try discriminate; auto.
  - destruct (check_expr n G F e) as [i [[c t]|]] eqn:Q.
    + injection E as E <-. apply app_eq_nil in E as [-> M]. destruct (matches (f_ret d) t) eqn:Z; [|discriminate]. apply matches_same in Z.
      destruct (WE _ _ _ _ A Q) as (? & ? & [= <- <-] & T). split; cbn; auto. eauto.
    + injection E as -> <-. destruct (WE _ _ _ _ A Q) as (? & ? & ? & T); discriminate.
  - injection E as <-. destruct D5 as (i & fs & X1 & X2 & X3 & X4). split; cbn; eauto 7.
  - injection E as <-. destruct D5 as (i & fs & X1 & X2 & X3 & X4). split; cbn; eauto 7.
  - injection E as <-. cbn; auto.
Qed.

Theorem program_checked : forall n, check_program n P = [] -> well_typed P (checked n P).
Proof.
  intros n E; split; [apply map_length|]. intros f d b N B. unfold checked in B. rewrite nth_error_map, N in B. cbn in B. injection B as <-.
  apply fun_checked with (n := n); auto. fold G. destruct (check_fun n G d) as [i c] eqn:Q. cbn. f_equal.
  unfold check_program in E. fold G in E. apply nth_error_In in N. revert E N. clear - Q.
  generalize (p_funs P). intros l; induction l as [|d' l IH]; cbn; [contradiction|]. intros E [->|I].
  - apply app_eq_nil in E as [E _]. rewrite Q in E; exact E.
  - apply app_eq_nil in E as [_ E]; auto.
Qed.
End Sound.
