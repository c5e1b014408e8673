(** Programs that follow the rules are accepted (C54). *)
From Coq Require Import String List Bool PeanoNat ZArith Lia.
From Verif Require Import TypeModel TypeSpec TypeProofs CheckModel CheckSpec CheckSound CheckRules.
Import ListNotations.
Local Open Scope nat_scope.
Local Open Scope list_scope.

(* ------------------------------------------------------------------------------- scopes *)

Lemma entry_assoc : forall {A} x (l : list (string * A)) a, entry x l a <-> assoc x l = Some a.
Proof.
  intros A x; induction l as [|[y b] l IH]; intros a; cbn; [split; [intros H; inversion H|discriminate]|].
  destruct (String.eqb_spec x y) as [->|N].
  - split; [intros H; inversion H; subst; [reflexivity|congruence]|intros [= ->]; constructor].
  - rewrite <- IH. split; [intros H; inversion H; subst; [congruence|assumption]|intros H; constructor; assumption].
Qed.
Lemma visible_in : forall x F e, visible x F e -> in_frames F x = Some e.
Proof.
  induction 1 as [f F e E|f F e N V IH]; cbn.
  - apply entry_assoc in E. rewrite E; reflexivity.
  - apply assoc_none in N. rewrite N; exact IH.
Qed.
Lemma hidden_in : forall x F, hidden x F -> in_frames F x = None.
Proof.
  induction F as [|f F IH]; intros H; cbn; [reflexivity|].
  assert (N : ~ In x (map fst f)) by (apply H; left; reflexivity). apply assoc_none in N. rewrite N.
  apply IH. intros g I; apply H; right; exact I.
Qed.

(* -------------------------------------------------------------------------------- types *)

Lemma apply_alike : forall s s' t, (forall p, mentions p t -> same (s p) (s' p)) -> same (apply s t) (apply s' t).
Proof.
  intros s s'.
  assert (L : forall ts, Forall (fun t => (forall p, mentions p t -> same (s p) (s' p)) -> same (apply s t) (apply s' t)) ts ->
    (forall p, Exists (mentions p) ts -> same (s p) (s' p)) -> Forall2 same (map (apply s) ts) (map (apply s') ts)).
  { induction 1 as [|t ts Ht Hts IH]; intros H; cbn; constructor.
    - apply Ht. intros p M; apply H; constructor; exact M.
    - apply IH. intros p M; apply H; constructor 2; exact M. }
  induction t as [d n ts IH|d n ts IH|i g ps r IH IHr| | | | | | |e IH|p] using ty_induct; intros H; cbn [apply]; try (constructor; fail).
  - constructor. apply L; [exact IH|]. intros p M; apply H, mentions_struct, M.
  - constructor. apply L; [exact IH|]. intros p M; apply H, mentions_enum, M.
  - constructor; [apply L; [exact IH|]|apply IHr]; intros p M; apply H, mentions_fun; auto.
  - constructor. apply IH. intros p M; apply H, mentions_arr, M.
  - apply H. constructor.
Qed.

Definition monos (b : binding) : Prop := forall p u, lookup b p = Some u -> mono u.

Lemma all_poly_mono : forall ts, Forall (fun t => mono t -> forall x b, monos b -> monos (snd (poly_match t x b))) ts ->
  Forall mono ts -> forall xs b, monos b -> monos (snd (all_poly ts xs b)).
Proof.
  induction 1 as [|t ts Ht Hts IH]; intros M [|x xs] b B; cbn [all_poly]; try exact B.
  inversion M; subst. specialize (Ht H1 x b B). destruct (poly_match t x b) as [[|] b1]; cbn [snd] in *; auto.
Qed.
Lemma poly_mono : forall t, mono t -> forall x b, monos b -> monos (snd (poly_match t x b)).
Proof.
  assert (V : forall t p b, mono t -> monos b -> monos (snd (poly_match t (TParam p) b))).
  { intros t p b M B. rewrite poly_param. destruct (lookup b p) eqn:L; [exact B|]. cbn [snd]. intros q u; cbn.
    destruct (Nat.eqb_spec p q); [intros [= <-]; exact M|apply B]. }
  induction t as [d n ts IH|d n ts IH|i g ps r IH IHr| | | | | | |e IH|p] using ty_induct; intros M x b B;
    (destruct (is_param_dec x) as [[q ->]|N]; [apply V; assumption|]).
  - rewrite poly_struct by exact N. destruct x; try exact B. destruct (_ || _); [exact B|]. inversion M; subst. apply all_poly_mono; assumption.
  - rewrite poly_enum by exact N. destruct x; try exact B. destruct (_ || _); [exact B|]. inversion M; subst. apply all_poly_mono; assumption.
  - rewrite poly_fun by exact N. destruct x; try exact B. destruct (negb _); [exact B|]. inversion M as [| |? ? ? Mp Mr| | | | | | | |]; subst.
    assert (A := all_poly_mono ps IH Mp params b B). destruct (all_poly ps params b) as [[|] b1]; [apply IHr|]; assumption.
  - destruct x; try exact B; destruct (N id eq_refl).
  - destruct x; try exact B; destruct (N id eq_refl).
  - destruct x; try exact B; destruct (N id eq_refl).
  - destruct x; try exact B; destruct (N id eq_refl).
  - destruct x; try exact B; destruct (N id eq_refl).
  - destruct x; try exact B; destruct (N id eq_refl).
  - destruct x; try exact B; [|destruct (N id eq_refl)]. cbn [poly_match]. inversion M; subst. apply IH; assumption.
  - destruct x; try exact B; destruct (N id eq_refl).
Qed.
Lemma subst_mono : forall b t, monos b -> mono t -> mono (subst t b).
Proof.
  intros [|[p0 t0] b'] t B M; [destruct t; exact M|].
  assert (L : forall ts, Forall (fun t => mono t -> mono (subst t ((p0, t0) :: b'))) ts -> Forall mono ts ->
    Forall mono ((fix all (ts : list ty) : list ty := match ts with [] => [] | a :: ts' => subst a ((p0, t0) :: b') :: all ts' end) ts)).
  { induction 1; intros M1; inversion M1; subst; constructor; auto. }
  revert M. induction t as [d n ts IH|d n ts IH|i g ps r IH IHr| | | | | | |e IH|p] using ty_induct; intros M; inversion M; subst; cbn [subst]; try (constructor; auto; fail).
  destruct (lookup ((p0, t0) :: b') p) as [u|] eqn:K; [apply (B _ _ K)|constructor].
Qed.
Lemma bind_all_mono : forall ps ts b, monos b -> Forall mono ts -> monos (bind_all ps ts b).
Proof.
  induction ps as [|q ps IH]; intros [|t ts] b B M; cbn; auto. inversion M; subst. apply IH; [|assumption].
  intros p u; cbn. destruct (q =? p); [intros [= <-]; assumption|apply B].
Qed.
Lemma shows_mentions : forall p t, mono t -> shows p t -> mentions p t.
Proof.
  intros p. induction t as [d n ts IH|d n ts IH|i g ps r IH IHr| | | | | | |e IH|q] using ty_induct; intros M S; inversion M; subst; inversion S; subst.
  - rewrite Forall_forall in *. eapply m_struct; eauto.
  - rewrite Forall_forall in *. eapply m_enum; eauto.
  - contradiction.
  - constructor; auto.
  - constructor.
Qed.
Lemma same_all_trans : forall ts us, Forall2 same ts us -> forall vs, Forall2 same us vs -> Forall2 same ts vs.
Proof. induction 1; intros vs H1; inversion H1; subst; constructor; eauto using same_trans. Qed.
Lemma same_all_sym : forall ts us, Forall2 same ts us -> Forall2 same us ts.
Proof. induction 1; constructor; auto using same_sym. Qed.

(* -------------------------------------------------------------------------------- calls *)

Lemma poly_args_found : forall args params s b, plain args -> compatible b s -> monos b -> Forall mono (map ar_typ args) ->
  Forall2 (fun a p => same a (apply s p)) (map ar_typ args) params ->
  exists b', check_poly_args params args b = (None, args, b') /\ compatible b' s /\ monos b'.
Proof.
  induction args as [|a args IH]; intros params s b P C B M F; inversion F as [|? y ? l' F1 F2]; subst; [cbn; eauto|].
  inversion P as [|? ? P1 P2]; subst. inversion M as [|? ? M1 M2]; subst. cbn [check_poly_args]. rewrite P1.
  destruct (TypeProofs.find (ar_typ a) y b s C F1) as [b1 [E1 C1]].
  assert (B1 := poly_mono _ M1 y b B). rewrite E1 in *. cbn [snd] in B1.
  destruct (IH l' s b1 P2 C1 B1 M2 F2) as (b2 & E2 & C2 & B2). rewrite E2. eauto.
Qed.

Lemma forall2_swap : forall {A B} (R : A -> B -> Prop) l m, Forall2 R l m -> Forall2 (fun b a => R a b) m l.
Proof. induction 1; constructor; auto. Qed.

(** An instance is what the checker finds. *)
Lemma instance_found : forall h explicit us t args, instance h explicit us t -> plain args -> Forall mono (map ar_typ args) ->
  Forall mono explicit -> Forall2 same us (map ar_typ args) ->
  (forall i g ps r, h = TFun i g ps r -> NoDup g /\ Forall mono ps /\ mono r) ->
  exists r, match_by_type h explicit args = (Ok r, args) /\ same t r /\ mono r.
Proof.
  intros h explicit us t args I P M ME S W. destruct I as [i ps r us S1|i types ps r explicit us s NE Ex A D].
  - destruct (W _ _ _ _ eq_refl) as (_ & _ & Mr). exists r. split; [|split; [apply same_refl|exact Mr]].
    assert (S2 : Forall2 same (map ar_typ args) ps) by (eapply same_all_trans; [apply same_all_sym; exact S|exact S1]).
    assert (L := TypeProofs.forall2_length _ _ _ S2). rewrite map_length in L.
    cbn [match_by_type List.length]. rewrite L, Nat.eqb_refl. cbn [negb Nat.eqb andb].
    assert (C := check_args_complete args ps P S2). assert (Q := check_args_plain args ps P).
    destruct (TypeModel.check_args ps args) as [e a]. cbn in C, Q; subst. reflexivity.
  - destruct (W _ _ _ _ eq_refl) as (N & _ & Mr).
    assert (S2 : Forall2 (fun a p => same a (apply s p)) (map ar_typ args) ps).
    { clear -S A. revert A; generalize (map ar_typ args) as vs, S; intros vs S0. clear S. revert ps.
      induction S0; intros ps A; inversion A; subst; constructor; eauto using same_trans, same_sym. }
    assert (L := TypeProofs.forall2_length _ _ _ S2). rewrite map_length in L.
    assert (LE : explicit = [] \/ List.length explicit = List.length types).
    { destruct Ex as [->|Ex]; [left; reflexivity|right]. symmetry. apply (TypeProofs.forall2_length _ _ _ Ex). }
    assert (C0 : compatible (bind_all types explicit []) s).
    { destruct Ex as [->|Ex]; [destruct types; intros p u H; discriminate|].
      apply bind_all_compatible; [intros p u H; discriminate|exact Ex]. }
    assert (B0 : monos (bind_all types explicit [])) by (apply bind_all_mono; [intros p u H; discriminate|exact ME]).
    destruct (poly_args_found args ps s _ P C0 B0 M S2) as (b & E & C & B).
    destruct (check_poly_sound _ _ _ _ _ _ L E) as (X & _ & K). destruct (K eq_refl) as (_ & K2 & _).
    assert (Bd : forall p, mentions p r -> exists u, lookup b p = Some u).
    { intros p H. destruct (D p H) as [[Hx Ip]|Hx].
      - destruct LE as [->|LE]; [congruence|].
        assert (F := bind_all_lookup types explicit [] N LE). revert F X. generalize (bind_all types explicit []). intros b0 F X. clear -F X Ip.
        induction F as [|x y l l' Hxy F IH]; [destruct Ip|]. destruct Ip as [<-|Ip]; [|auto]. eauto.
      - specialize (K2 p Hx). destruct (lookup b p); [eauto|congruence]. }
    exists (subst r b). split; [|split; [|apply subst_mono; assumption]].
    + cbn [match_by_type]. rewrite L, Nat.eqb_refl. cbn [negb].
      replace (negb (List.length explicit =? 0) && negb (List.length explicit =? List.length types)) with false.
      2:{ destruct LE as [->|LE]; [reflexivity|]. rewrite LE, Nat.eqb_refl. cbn [negb]. rewrite andb_false_r. reflexivity. }
      destruct types as [|q types]; [congruence|]. cbn [List.length Nat.eqb]. rewrite E.
      replace (find_unbound r b) with (@nil nat); [reflexivity|]. symmetry. apply unbound_shows.
      intros p Sh. apply shows_mentions in Sh; [|exact Mr]. destruct (Bd p Sh) as [u ->]. discriminate.
    + apply same_sym. eapply same_trans; [apply subst_same|]. apply apply_alike. intros p H. unfold given.
      destruct (Bd p H) as [u Eu]. rewrite Eu. apply C, Eu.
Qed.
Lemma instance_applicable : forall h explicit us t, instance h explicit us t -> (forall i g ps r, h = TFun i g ps r -> mono r) ->
  applicable h explicit us.
Proof.
  intros h explicit us t I W. destruct I as [i ps r us S1|i types ps r explicit us s NE Ex A D].
  - exists i, [], ps, r. auto.
  - exists i, types, ps, r. split; [reflexivity|]. split.
    + destruct Ex as [->|Ex]; [auto|right]. symmetry; apply (TypeProofs.forall2_length _ _ _ Ex).
    + destruct types as [|q types]; [congruence|]. exists s. split; [|split; [exact A|]].
      * intros H. destruct Ex; [congruence|assumption].
      * intros p S. apply D. apply shows_mentions; [eapply W; reflexivity|exact S].
Qed.
Lemma applicable_same : forall h explicit us vs, Forall2 same us vs -> applicable h explicit vs -> applicable h explicit us.
Proof.
  intros h explicit us vs S (i & types & ps & r & -> & Ex & A). exists i, types, ps, r. split; [reflexivity|]. split; [exact Ex|].
  destruct types as [|q types]; [eapply same_all_trans; eassumption|]. destruct A as (s & A1 & A2 & A3). exists s. split; [exact A1|].
  split; [|exact A3]. clear -S A2. revert ps A2. induction S; intros ps A; inversion A; subst; constructor; eauto using same_trans.
Qed.
(** The first overload that can be called is chosen. *)
Lemma chain_found : forall before f h after explicit us t args, instance h explicit us t -> plain args -> Forall mono (map ar_typ args) ->
  Forall mono explicit -> Forall2 same us (map ar_typ args) ->
  (forall i g ps r, h = TFun i g ps r -> NoDup g /\ Forall mono ps /\ mono r) ->
  (forall c i g ps r, In c before -> snd c = TFun i g ps r -> NoDup g) ->
  Forall (fun c => ~ applicable (snd c) explicit us) before ->
  exists r, match_by_symbol (before ++ (f, h) :: after) explicit args = (inl (f, r), args) /\ same t r /\ mono r.
Proof.
  intros before f h after explicit us t args I P M ME S Wh Wb NA.
  destruct (instance_found _ _ _ _ _ I P M ME S Wh) as (r & E & Sr & Mr). exists r. split; [|auto].
  induction before as [|[f' h'] before IH]; cbn [app match_by_symbol].
  - rewrite E. reflexivity.
  - inversion NA as [|? ? NA1 NA2]; subst. cbn [snd] in NA1.
    assert (Q := match_plain h' explicit args P).
    assert (D : distinct_types h') by (destruct h'; cbn; auto; eapply (Wb _ _ _ _ _ (or_introl eq_refl)); reflexivity).
    assert (A := accept_iff h' explicit args D P).
    destruct (match_by_type h' explicit args) as [[r'|e] a'] eqn:E'; cbn [fst snd] in *; subst a'.
    + exfalso. apply NA1. eapply applicable_same; [exact S|]. apply A. eauto.
    + rewrite IH; [reflexivity|intros c i g ps r0 Ic; apply Wb; right; exact Ic|exact NA2].
Qed.

(* ----------------------------------------------------------------------------- the walk *)

(** Scopes of the rules and of the checker: the same names, with types that are the same. *)
Inductive entries_agree : option lentry -> option lentry -> Prop :=
| agree_none : entries_agree None None
| agree_var t t' : same t t' -> mono t' -> entries_agree (Some (LVar t)) (Some (LVar t'))
| agree_type t t' : entries_agree (Some (LType t)) (Some (LType t')).
Definition frames_agree (f f' : frame) : Prop := forall x, entries_agree (assoc x f) (assoc x f').
Notation scopes_agree := (Forall2 frames_agree).

Lemma in_frames_agree : forall F F' x, scopes_agree F F' -> entries_agree (in_frames F x) (in_frames F' x).
Proof.
  induction 1 as [|f f' F F' A _ IH]; cbn; [constructor|]. specialize (A x).
  destruct A; [exact IH|constructor; assumption|constructor].
Qed.
Lemma visible_agree : forall F F' x t, scopes_agree F F' -> visible x F (LVar t) ->
  exists t', in_frames F' x = Some (LVar t') /\ same t t' /\ mono t'.
Proof.
  intros F F' x t A V. apply visible_in in V. assert (B := in_frames_agree F F' x A). rewrite V in B.
  inversion B; subst. eauto.
Qed.
Lemma hidden_agree : forall F F' x, scopes_agree F F' -> hidden x F -> in_frames F' x = None.
Proof.
  intros F F' x A H. apply hidden_in in H. assert (B := in_frames_agree F F' x A). rewrite H in B. inversion B; reflexivity.
Qed.
Lemma nil_agree : frames_agree [] [].
Proof. intros x; constructor. Qed.
Lemma var_agree : forall x t t', same t t' -> mono t' -> frames_agree [(x, LVar t)] [(x, LVar t')].
Proof. intros x t t' S M y; cbn. destruct (String.eqb y x); constructor; assumption. Qed.
Lemma cons_agree : forall f f' x t t', frames_agree f f' -> same t t' -> mono t' -> frames_agree ((x, LVar t) :: f) ((x, LVar t') :: f').
Proof. intros f f' x t t' A S M y; cbn. destruct (String.eqb y x); [constructor; assumption|apply A]. Qed.

Lemma assoc_rev : forall {A} x (l : list (string * A)), NoDup (map fst l) -> assoc x (rev l) = assoc x l.
Proof.
  intros A x l N. destruct (assoc x l) as [a|] eqn:E.
  - apply in_assoc; [|rewrite <- in_rev; apply assoc_in; exact E]. rewrite map_rev. apply NoDup_rev, N.
  - apply assoc_none. rewrite map_rev, <- in_rev. apply assoc_none, E.
Qed.
(** Parameters are declared. *)
Lemma declared : forall l f F, NoDup (map fst (rev l ++ f)) -> declare (f :: F) l = Some ((rev l ++ f) :: F).
Proof.
  induction l as [|[x e] l IH]; intros f F N; cbn [declare rev app]; [reflexivity|].
  cbn [rev] in N. rewrite <- app_assoc in N. cbn [app] in N.
  assert (A : assoc x f = None).
  { apply assoc_none. intros I. rewrite map_app in N. apply NoDup_remove_2 in N. apply N. apply in_or_app; right; exact I. }
  cbn [define]. rewrite A. rewrite IH by exact N. rewrite <- app_assoc. reflexivity.
Qed.
Lemma params_names : forall ts ps, map fst (params ts ps) = map fst ts ++ map fst ps.
Proof. intros; unfold params. rewrite map_app, !map_map. reflexivity. Qed.
Lemma params_declared : forall ts ps F F', NoDup (map fst ts ++ map fst ps) -> Forall mono (map snd ps) -> scopes_agree F F' ->
  exists F1, declare ([] :: F') (fn_entries ts ps) = Some F1 /\ scopes_agree (params ts ps :: F) F1.
Proof.
  intros ts ps F F' N M A. change (fn_entries ts ps) with (params ts ps). eexists. split.
  - apply declared. rewrite app_nil_r, map_rev. apply NoDup_rev. rewrite params_names. exact N.
  - constructor; [|exact A]. rewrite app_nil_r. intros x. rewrite assoc_rev by (rewrite params_names; exact N).
    destruct (assoc x (params ts ps)) as [[t|t]|] eqn:E; constructor; [apply same_refl|].
    apply assoc_in in E. apply in_app_or in E. destruct E as [E|E]; apply in_map_iff in E; destruct E as ([y u] & [= -> ->] & I).
    rewrite Forall_forall in M. apply M. apply (in_map snd) in I. exact I.
Qed.
(** The variables of a case. *)
Lemma case_declared : forall xs ts f, List.length xs = List.length ts -> NoDup (rev xs ++ map fst f) ->
  case_vars f xs ts = ([], rev (combine xs (map LVar ts)) ++ f).
Proof.
  induction xs as [|x xs IH]; intros [|t ts] f L N; cbn in L; try discriminate; [reflexivity|].
  cbn [case_vars rev combine map]. cbn [rev] in N. rewrite <- app_assoc in N. cbn [app] in N.
  assert (A : assoc x f = None).
  { apply assoc_none. intros I. apply NoDup_remove_2 in N. apply N. apply in_or_app; right; exact I. }
  rewrite A. rewrite IH; [|congruence|cbn [map fst]; exact N]. rewrite <- app_assoc. reflexivity.
Qed.
Lemma combine_names : forall {A} (xs : list string) (l : list A), List.length xs = List.length l -> map fst (combine xs l) = xs.
Proof. intros A; induction xs as [|x xs IH]; intros [|a l] L; cbn in *; try discriminate; [reflexivity|]. f_equal. apply IH. congruence. Qed.
Lemma combine_agree : forall xs ts us, Forall2 (fun t u => same t u /\ mono u) ts us ->
  frames_agree (combine xs (map LVar ts)) (combine xs (map LVar us)).
Proof.
  intros xs ts us H; revert xs; induction H as [|t u ts us [S M] _ IH]; intros [|x xs]; cbn; try apply nil_agree.
  apply cons_agree; auto.
Qed.

Scheme finishes_m := Minimality for finishes Sort Prop
  with ends_m := Minimality for CheckRules.ends Sort Prop
  with branch_m := Minimality for branch_ends Sort Prop
  with all_m := Minimality for all_end Sort Prop.
Combined Scheme ends_mutual from finishes_m, ends_m, branch_m, all_m.
Lemma ends_ok : (forall s, finishes s -> terminates s = true) /\ (forall l, CheckRules.ends l -> last_terminates l = true) /\
  (forall s, branch_ends s -> chain_ends s = true) /\ (forall cs, all_end cs -> forallb (fun c => last_terminates (snd c)) cs = true).
Proof.
  apply ends_mutual.
  - reflexivity.
  - intros c b r _ E _ B. rewrite ends_if, E, B. reflexivity.
  - intros e c cs _ H. rewrite ends_match. exact H.
  - intros s _ T. exact T.
  - intros s l E H. cbn [last_terminates]. destruct l; [inversion E|exact H].
  - intros b _ H. exact H.
  - intros c b r _ E _ B. cbn [chain_ends]. rewrite E, B. reflexivity.
  - reflexivity.
  - intros x xs b cs _ E _ H. cbn [forallb snd]. rewrite E, H. reflexivity.
Qed.

Section Complete.
Variable P : program.
Hypothesis T : tidy P.
Notation G := (p_env P).

Lemma root_entry : forall F F' x chain, scopes_agree F F' -> hidden x F -> entry x (g_names G) (GFuns chain) ->
  resolve G F' x = FFun chain.
Proof.
  intros F F' x chain A H E. unfold resolve. rewrite (hidden_agree _ _ _ A H). apply entry_assoc in E. rewrite E. reflexivity.
Qed.

(** A name whose value can be used is a name whose value can be an argument. *)
Lemma ident_arg : forall F x c t chain, check_ident G F x false = ([], Some (c, t, chain)) ->
  check_ident G F x true = ([], Some (c, t, chain)) /\ overloaded (Arg t chain) = false.
Proof.
  intros F x c t chain. unfold check_ident. destruct (resolve G F x) as [u|u|[|[f u] [|c2 more]]|]; intros E; try discriminate.
  - injection E as <- <- <-. auto.
  - cbn [note] in *. destruct (is_fun u); cbn in E |- *; [|discriminate]. injection E as <- <- <-. auto.
Qed.
Definition arg_of (F : list frame) (e : expr) (r : cexpr * ty) : cexpr * arg :=
  match e with
  | EId x => match check_ident G F x true with (_, Some (c, t, chain)) => (c, Arg t chain) | _ => (fst r, Arg (snd r) []) end
  | _ => (fst r, Arg (snd r) [])
  end.
Definition good_at (n : nat) (F : list frame) (e : expr) (r : cexpr * ty) : Prop := check_expr n G F e = ([], Some r).

Lemma arg_of_ok : forall n F e r, good_at n F e r -> ar_typ (snd (arg_of F e r)) = snd r /\ overloaded (snd (arg_of F e r)) = false.
Proof.
  intros [|n] F e [c t] E; [discriminate|]. unfold good_at in E. destruct e; cbn [arg_of snd fst]; auto.
  cbn [check_expr] in E. destruct (check_ident G F x false) as [i [[[c' t'] chain]|]] eqn:Q; [|discriminate]. injection E as -> -> ->.
  destruct (ident_arg _ _ _ _ _ Q) as [-> O]. auto.
Qed.
Lemma args_found : forall n F es rs, Forall2 (good_at n F) es rs ->
  CheckModel.check_args G F (check_expr n G F) es = ([], Some (map (fun p => arg_of F (fst p) (snd p)) (combine es rs))).
Proof.
  induction 1 as [|e r es rs E _ IH]; [reflexivity|]. cbn [CheckModel.check_args combine map fst snd]. rewrite IH.
  destruct n as [|n]; [discriminate|]. destruct r as [c t]. unfold good_at in E.
  destruct e; try (rewrite E; reflexivity).
  cbn [check_expr] in E. destruct (check_ident G F x false) as [i [[[c' t'] chain]|]] eqn:Q; [|discriminate]. injection E as -> -> ->.
  destruct (ident_arg _ _ _ _ _ Q) as [Q' O]. cbn [arg_of]. rewrite Q'. reflexivity.
Qed.
Lemma args_typed : forall n F es rs, Forall2 (good_at n F) es rs ->
  let l := map (fun p => arg_of F (fst p) (snd p)) (combine es rs) in
  map ar_typ (map snd l) = map snd rs /\ plain (map snd l).
Proof.
  induction 1 as [|e r es rs E _ [IH1 IH2]]; cbn [combine map fst snd]; [split; [reflexivity|constructor]|].
  destruct (arg_of_ok _ _ _ _ E) as [A B]. split; [rewrite A; f_equal; exact IH1|constructor; [exact B|exact IH2]].
Qed.
Lemma array_found : forall n F es rs t0, Forall2 (good_at n F) es rs -> Forall (fun r => same (snd r) t0) rs ->
  array_lit (check_expr n G F) (Some t0) es = ([], Some (map fst rs, Some t0)).
Proof.
  induction 1 as [|e [c t] es rs E _ IH]; intros S; [reflexivity|]. cbn [array_lit]. rewrite E. inversion S; subst. cbn [snd] in H1.
  change (drop_errors []) with (@nil issue). replace (matches t t0) with true by (symmetry; apply matches_same; assumption). cbn [negb].
  rewrite IH by assumption. reflexivity.
Qed.

(** A call, when source and arguments are known. *)
Lemma field_found : forall n ts ps fs x t, entry n (g_structs G) (ps, fs) -> entry x fs t -> Forall mono ts ->
  exists t', field_type G n ts x = Some t' /\ same (apply (with_types ps ts) t) t' /\ mono t'.
Proof.
  intros n ts ps fs x t E X M. destruct (tidy_structs _ T _ _ _ E) as [N Mf]. apply entry_assoc in E, X.
  unfold field_type. rewrite E, X. eexists; split; [reflexivity|]. split.
  - apply same_sym. eapply same_trans; [apply subst_same|]. apply apply_alike. intros p _. rewrite given_with by exact N. apply same_refl.
  - apply subst_mono.
    + apply bind_all_mono; [intros p u H; discriminate|exact M].
    + rewrite Forall_forall in Mf. apply Mf. apply assoc_in in X. apply (in_map snd) in X. exact X.
Qed.
Lemma with_types_same : forall ps ts us, Forall2 same ts us -> forall p, same (with_types ps ts p) (with_types ps us p).
Proof.
  induction ps as [|q ps IH]; intros ts us S p; cbn; [apply same_refl|]. destruct S; [apply same_refl|].
  destruct (q =? p); auto.
Qed.
Lemma has_field_ok : forall u u' x, same u u' -> (has_field P u x <-> CheckModel.has_field G u' x = true).
Proof.
  intros u u' x S. split.
  - intros (d & n & ts & ps & fs & -> & E & I). inversion S; subst. cbn. unfold field_type. apply entry_assoc in E. rewrite E.
    destruct (assoc x fs) eqn:X; [reflexivity|]. apply assoc_none in X. contradiction.
  - intros H. destruct u'; try discriminate. inversion S; subst. cbn in H. unfold field_type in H.
    destruct (assoc name (g_structs G)) as [[ps fs]|] eqn:E; [|discriminate]. exists d1, name, ts, ps, fs. split; [reflexivity|].
    split; [apply entry_assoc; exact E|]. destruct (assoc x fs) eqn:X; [|discriminate]. apply assoc_in in X. apply (in_map fst) in X. exact X.
Qed.

Definition Pe (F : list frame) (e : expr) (t : ty) : Prop := forall F', scopes_agree F F' ->
  exists n0 c t', same t t' /\ mono t' /\ forall n, n0 <= n -> good_at n F' e (c, t').
Definition Pargs (F : list frame) (es : list expr) (ts : list ty) : Prop := forall F', scopes_agree F F' ->
  exists n0 rs, Forall2 same ts (map snd rs) /\ Forall mono (map snd rs) /\ forall n, n0 <= n -> Forall2 (good_at n F') es rs.
Definition Pcall (F : list frame) (f : expr) (ts us : list ty) (t : ty) : Prop := forall F', scopes_agree F F' ->
  forall first args rs n1, Forall2 same us (map ar_typ (map snd first) ++ map snd rs) ->
    Forall mono (map ar_typ (map snd first) ++ map snd rs) -> plain (map snd first) ->
    List.length first + List.length args <= 6 -> (forall n, n1 <= n -> Forall2 (good_at n F') args rs) ->
    exists n0 c t', same t t' /\ mono t' /\
      forall n, n0 <= n -> CheckModel.call G F' (check_expr n G F') f ts first args = ([], Some (c, t')).
Definition Pstmt (F : list frame) (ret : ty) (s : stmt) (F1 : list frame) : Prop := forall F', scopes_agree F F' ->
  exists n0 F1' k, scopes_agree F1 F1' /\ forall n, n0 <= n -> check_stmt n G F' ret s = ([], F1', k).
Definition Pblock (F : list frame) (ret : ty) (ss : list stmt) : Prop := forall F', scopes_agree F F' ->
  exists n0 ks, forall n, n0 <= n -> check_block (fun F s => check_stmt n G F ret s) F' ss = ([], ks).
Definition Pcases (F : list frame) (ret : ty) (ps : list nat) (us : list ty) (cs : list (string * list string * list stmt)) (members : list nat) : Prop :=
  forall F' b ms seen, scopes_agree F F' -> (forall p, same (with_types ps us p) (given b p)) -> monos b ->
  (exists name, entry name (g_enums G) (ps, ms)) ->
  NoDup members -> (forall f, In f members -> In f ms) -> (forall f, In f members -> ~ In f seen) ->
  exists n0 ks, forall n, n0 <= n ->
    check_cases G F' (fun F ss => check_block (fun F s => check_stmt n G F ret s) F ss) b ms seen cs = ([], ks).

Scheme has_m := Minimality for has Sort Prop
  with have_m := Minimality for have Sort Prop
  with calls_m := Minimality for calls Sort Prop
  with fits_m := Minimality for fits Sort Prop
  with block_m := Minimality for block Sort Prop
  with cases_m := Minimality for cases Sort Prop.
Combined Scheme rules_mutual from has_m, have_m, calls_m, fits_m, block_m, cases_m.

Lemma ready : forall n1 F' first args rs us, (forall n, n1 <= n -> Forall2 (good_at n F') args rs) ->
  Forall2 same us (map ar_typ (map snd first) ++ map snd rs) ->
  Forall mono (map ar_typ (map snd first) ++ map snd rs) -> plain (map snd first) ->
  exists l, (forall n, n1 <= n -> CheckModel.check_args G F' (check_expr n G F') args = ([], Some l)) /\
    Forall2 same us (map ar_typ (map snd (first ++ l))) /\ Forall mono (map ar_typ (map snd (first ++ l))) /\ plain (map snd (first ++ l)).
Proof.
  intros n1 F' first args rs us K S M Q. exists (map (fun p => arg_of F' (fst p) (snd p)) (combine args rs)).
  split; [intros n L; apply args_found, K, L|]. destruct (args_typed n1 F' args rs (K n1 (le_n _))) as [E R]. cbn in E, R.
  rewrite (map_app snd), (map_app ar_typ), E. split; [exact S|]. split; [exact M|]. apply Forall_app; auto.
Qed.
Lemma special_no : forall x, ~ special x -> (String.eqb x "printf" || String.eqb x "debug") = false /\ String.eqb x "unsafe" = false.
Proof.
  intros x N. unfold special in N. destruct (String.eqb_spec x "printf"), (String.eqb_spec x "debug"), (String.eqb_spec x "unsafe"); cbn; tauto || auto.
Qed.
Lemma few : forall a b, a + b <= 6 -> (max_args <? a + b) = false.
Proof. intros a b L. apply Nat.ltb_ge. exact L. Qed.

Lemma calls_root_ok : forall F x ts us t before f h after, hidden x F -> entry x (g_names G) (GFuns (before ++ (f, h) :: after)) ->
  ~ special x -> Forall mono ts -> Forall (fun c => ~ applicable (snd c) ts us) before -> instance h ts us t ->
  Pcall F (EId x) ts us t.
Proof.
  intros F x ts us t before f h after Hx E Sp Mt NA I F' A first args rs n1 S M Q L K.
  destruct (ready _ _ _ _ _ _ K S M Q) as (l & E1 & S1 & M1 & Q1).
  assert (W : forall c i g ps r, In c (before ++ (f, h) :: after) -> snd c = TFun i g ps r -> NoDup g /\ Forall mono ps /\ mono r).
  { intros [c u] i g ps r Ic Eu. cbn in Eu; subst u. eapply (tidy_names _ T); eassumption. }
  assert (Ih : In (f, h) (before ++ (f, h) :: after)) by (apply in_or_app; right; left; reflexivity).
  destruct (chain_found before f h after ts us t (map snd (first ++ l)) I Q1 M1 Mt S1) as (r & Er & Sr & Mr).
  { intros i g ps r Eh. eapply (W (f, h)); eauto. }
  { intros c i g ps r Ic Ec. eapply (W c); [apply in_or_app; left; exact Ic|exact Ec]. }
  { exact NA. }
  exists n1, (CCall (CFun f) (settle_all (first ++ l) (map snd (first ++ l)))), r. split; [exact Sr|]. split; [exact Mr|].
  intros n Ln. unfold CheckModel.call. rewrite (few _ _ L). unfold check_ident. rewrite (root_entry _ _ _ _ A Hx E).
  destruct (special_no _ Sp) as [B1 B2].
  assert (R : forall cf tf, resolve_call G (name_of (EId x)) cf tf (before ++ (f, h) :: after) ts ([] ++ []) (first ++ l)
    = ([], Some (CCall (CFun f) (settle_all (first ++ l) (map snd (first ++ l))), r))).
  { intros cf tf. unfold resolve_call. cbn [name_of]. rewrite B1, B2, Er. destruct (before ++ (f, h) :: after) eqn:Z; [destruct before; discriminate|reflexivity]. }
  destruct before as [|[f1 h1] before]; cbn [app] in *.
  - destruct I as [i ps r0 us S0|i types ps r0 ex us s NE Ex A0 D0];
      (destruct after as [|a2 after]; cbn [is_fun negb note snd errors filter]; rewrite (E1 n Ln); apply R).
  - destruct (before ++ (f, h) :: after) as [|c2 rest] eqn:Z; [destruct before; discriminate|]. cbn [snd].
    replace (errors (note (negb (is_fun h1)) TypeAsValue)) with (@nil issue) by (destruct (is_fun h1); reflexivity).
    rewrite (E1 n Ln). apply R.
Qed.

Lemma calls_print_ok : forall F x ts us f i g ps r more, hidden x F -> entry x (g_names G) (GFuns ((f, TFun i g ps r) :: more)) ->
  x = "printf"%string \/ x = "debug"%string -> In f (g_variadic G) -> Pcall F (EId x) ts us TNothing.
Proof.
  intros F x ts us f i g ps r more Hx E Sp V F' A first args rs n1 S M Q L K.
  destruct (ready _ _ _ _ _ _ K S M Q) as (l & E1 & S1 & M1 & Q1).
  exists n1, (CPrint (map fst (first ++ l))), TNothing. split; [constructor|]. split; [constructor|].
  intros n Ln. unfold CheckModel.call. rewrite (few _ _ L). unfold check_ident. rewrite (root_entry _ _ _ _ A Hx E).
  assert (R : forall cf tf, resolve_call G (name_of (EId x)) cf tf ((f, TFun i g ps r) :: more) ts ([] ++ []) (first ++ l)
    = ([], Some (CPrint (map fst (first ++ l)), TNothing))).
  { intros cf tf. unfold resolve_call. cbn [name_of].
    replace (String.eqb x "printf" || String.eqb x "debug") with true by (destruct Sp as [-> | ->]; reflexivity).
    replace (existsb (Nat.eqb f) (g_variadic G)) with true; [reflexivity|].
    symmetry. apply existsb_exists. exists f. split; [exact V|apply Nat.eqb_refl]. }
  destruct more as [|c2 more]; cbn [is_fun negb note snd errors filter]; rewrite (E1 n Ln); apply R.
Qed.

Lemma same_fun_inv : forall i ps r t', same (TFun i [] ps r) t' -> mono t' ->
  exists i' ps' r', t' = TFun i' [] ps' r' /\ Forall2 same ps ps' /\ same r r' /\ Forall mono ps' /\ mono r'.
Proof. intros i ps r t' S M. inversion S; subst. inversion M; subst. eauto 10. Qed.

Lemma calls_value_ok : forall F f us i ps t, Pe F f (TFun i [] ps t) -> callee F f -> Forall2 same us ps -> Pcall F f [] us t.
Proof.
  intros F f us i ps t H C Su F' A first args rs n1 S M Q L K.
  destruct (ready _ _ _ _ _ _ K S M Q) as (l & E1 & S1 & M1 & Q1).
  destruct (H F' A) as (n2 & cf & tf & Sf & Mf & Ef). destruct (same_fun_inv _ _ _ _ Sf Mf) as (i' & ps' & r' & -> & Sp & Sr & Mp & Mr).
  destruct (instance_found (TFun i' [] ps' r') [] us r' (map snd (first ++ l))) as (r & Er & Sr' & Mr'); auto.
  { constructor. exact (same_all_trans _ _ Su _ Sp). }
  { intros i1 g1 ps1 r1 [= <- <- <- <-]. split; [constructor|auto]. }
  exists (1 + n1 + n2), (CCall cf (settle_all (first ++ l) (map snd (first ++ l)))), r.
  split; [eapply same_trans; eassumption|]. split; [exact Mr'|].
  intros n Ln. unfold CheckModel.call. rewrite (few _ _ L). assert (Q2 := E1 n ltac:(lia)). assert (Q3 := Ef n ltac:(lia)). unfold good_at in Q3.
  assert (R : forall name, name = ""%string \/ ~ special name -> resolve_call G name cf (TFun i' [] ps' r') [] [] ([] ++ []) (first ++ l)
    = ([], Some (CCall cf (settle_all (first ++ l) (map snd (first ++ l))), r))).
  { intros name N. unfold resolve_call.
    replace (String.eqb name "printf" || String.eqb name "debug") with false by (destruct N as [-> |N]; [reflexivity|symmetry; apply special_no, N]).
    replace (String.eqb name "unsafe") with false by (destruct N as [-> |N]; [reflexivity|symmetry; apply special_no, N]).
    rewrite Er. reflexivity. }
  destruct f; cbn [callee] in C; try contradiction; try (rewrite Q3, Q2; apply R; left; reflexivity).
  destruct C as [[t0 V] Ns]. destruct n as [|n]; [lia|].
  destruct (visible_agree _ _ _ _ A V) as (t1 & V1 & _ & _).
  unfold check_ident in *. unfold resolve in *. cbn [check_expr] in Q3. unfold check_ident, resolve in Q3. rewrite V1 in *.
  injection Q3 as <- ->. cbn [snd]. rewrite Q2. apply R. right; exact Ns.
Qed.

Ltac head S := inversion S; subst; clear S.
Ltac more n := destruct n as [|n]; [exfalso; lia|].

Lemma call_ok2 : forall F f ts args us t, Pargs F args us -> Pcall F f ts us t -> List.length args <= 6 -> Pe F (ECall f ts args) t.
Proof.
  intros F f ts args us t HA HC L F' A. destruct (HA F' A) as (n1 & rs & S1 & M1 & E1).
  destruct (HC F' A [] args rs n1) as (n2 & c & t' & S2 & M2 & E2); auto; [constructor|].
  exists (S n2), c, t'. split; [exact S2|]. split; [exact M2|]. intros n Ln. more n. unfold good_at. cbn [check_expr]. apply E2; lia.
Qed.
Lemma method_ok2 : forall F l x ts args u us t, Pe F l u -> ~ has_field P u x -> Pargs F args us -> Pcall F (EId x) ts (u :: us) t ->
  List.length args <= 5 -> Pe F (EDot l (ECall (EId x) ts args)) t.
Proof.
  intros F l x ts args u us t HL NF HA HC L F' A. destruct (HA F' A) as (n1 & rs & S1 & M1 & E1).
  destruct (HL F' A) as (n2 & cl & tl & S2 & M2 & E2).
  destruct (HC F' A [(cl, Arg tl [])] args rs n1) as (n3 & c & t' & S3 & M3 & E3); cbn [map snd ar_typ app List.length].
  { constructor; assumption. } { constructor; assumption. } { repeat constructor. } { lia. } { exact E1. }
  exists (S (n2 + n3)), c, t'. split; [exact S3|]. split; [exact M3|]. intros n Ln. more n. unfold good_at in *. cbn [check_expr].
  rewrite E2 by lia. cbn [name_of]. destruct (CheckModel.has_field G tl x) eqn:Hf.
  - exfalso. apply NF. apply (has_field_ok u tl x S2), Hf.
  - rewrite E3 by lia. reflexivity.
Qed.

Lemma index_shape : forall n F l r i c t, check_expr n G F (EIndex l r) = (i, Some (c, t)) -> exists a b, c = CIndex a b.
Proof.
  intros [|n] F l r i c t Q; [discriminate|]. cbn [check_expr] in Q. unfold index, fail in Q.
  destruct (snd (check_expr n G F l)) as [[cl tl]|], (snd (check_expr n G F r)) as [[cr tr]|]; try discriminate.
  destruct (negb (is_int tr)); [discriminate|]. destruct tl; try discriminate. injection Q as _ <- _. eauto.
Qed.
Lemma dot_index_shape : forall n F l b r i c t, check_expr n G F (EDot l (EIndex b r)) = (i, Some (c, t)) -> exists x y, c = CIndex x y.
Proof.
  intros [|n] F l b r i c t Q; [discriminate|]. cbn [check_expr] in Q.
  destruct (check_expr n G F l) as [il [[cl tl]|]]; [|discriminate].
  destruct (check_expr n G F (EIndex (EDot l b) r)) as [i' [[c' t']|]] eqn:Z; [|discriminate]. injection Q as _ -> _.
  eapply index_shape; eassumption.
Qed.

Lemma cases_length : forall Q F ret ps us cs members, cases Q F ret ps us cs members -> List.length members = List.length cs.
Proof. intros Q F ret ps us cs; revert F. induction cs as [|c cs IH]; intros F members H; inversion H; subst; cbn; [reflexivity|]. f_equal. eapply IH; eassumption. Qed.

Theorem rules_complete :
  (forall F e t, has P F e t -> Pe F e t) /\ (forall F es ts, have P F es ts -> Pargs F es ts) /\
  (forall F f ts us t, calls P F f ts us t -> Pcall F f ts us t) /\ (forall F ret s F1, fits P F ret s F1 -> Pstmt F ret s F1) /\
  (forall F ret ss, block P F ret ss -> Pblock F ret ss) /\
  (forall F ret ps us cs fs, cases P F ret ps us cs fs -> Pcases F ret ps us cs fs).
Proof.
  apply rules_mutual.
  - intros F z F' A. exists 1, (CLit (LInt z)), TInt. repeat split; try constructor. intros n L; more n. reflexivity.
  - intros F z F' A. exists 1, (CLit (LBool z)), TBool. repeat split; try constructor. intros n L; more n. reflexivity.
  - intros F z F' A. exists 1, (CLit (LStr z)), TString. repeat split; try constructor. intros n L; more n. reflexivity.
  - intros F x t V F' A. destruct (visible_agree _ _ _ _ A V) as (t' & E & S & M). exists 1, (CVar x), t'.
    split; [exact S|]. split; [exact M|]. intros n L; more n. unfold good_at; cbn [check_expr]. unfold check_ident, resolve. rewrite E. reflexivity.
  - intros F x f i ps r H E F' A. destruct (tidy_names _ T _ _ _ _ _ _ _ E (or_introl eq_refl)) as (_ & Mp & Mr).
    exists 1, (CFun f), (TFun i [] ps r). split; [apply same_refl|]. split; [constructor; assumption|].
    intros n L; more n. unfold good_at; cbn [check_expr]. unfold check_ident. rewrite (root_entry _ _ _ _ A H E). reflexivity.
  - intros F o l r _ IL _ IR F' A. destruct (IL F' A) as (n1 & c1 & t1 & S1 & M1 & E1). destruct (IR F' A) as (n2 & c2 & t2 & S2 & M2 & E2).
    head S1. head S2. exists (S (n1 + n2)), (CArith o c1 c2), TInt. split; [constructor|]. split; [constructor|]. intros n L; more n.
    unfold good_at in *; cbn [check_expr]. rewrite E1, E2 by lia. reflexivity.
  - intros F o l r _ IL _ IR F' A. destruct (IL F' A) as (n1 & c1 & t1 & S1 & M1 & E1). destruct (IR F' A) as (n2 & c2 & t2 & S2 & M2 & E2).
    head S1. head S2. exists (S (n1 + n2)), (CLogic o c1 c2), TBool. split; [constructor|]. split; [constructor|]. intros n L; more n.
    unfold good_at in *; cbn [check_expr]. rewrite E1, E2 by lia. reflexivity.
  - intros F o l r _ IL _ IR F' A. destruct (IL F' A) as (n1 & c1 & t1 & S1 & M1 & E1). destruct (IR F' A) as (n2 & c2 & t2 & S2 & M2 & E2).
    head S1. head S2. exists (S (n1 + n2)), (CCmp o c1 c2), TBool. split; [constructor|]. split; [constructor|]. intros n L; more n.
    unfold good_at in *; cbn [check_expr]. rewrite E1, E2 by lia. reflexivity.
  - intros F e _ IE F' A. destruct (IE F' A) as (n1 & c1 & t1 & S1 & M1 & E1). head S1.
    exists (S n1), (CNot c1), TBool. split; [constructor|]. split; [constructor|]. intros n L; more n.
    unfold good_at in *; cbn [check_expr]. rewrite E1 by lia. reflexivity.
  - intros F e _ IE F' A. destruct (IE F' A) as (n1 & c1 & t1 & S1 & M1 & E1). head S1.
    exists (S n1), (CBNot c1), TInt. split; [constructor|]. split; [constructor|]. intros n L; more n.
    unfold good_at in *; cbn [check_expr]. rewrite E1 by lia. reflexivity.
  - intros F e _ IE F' A. destruct (IE F' A) as (n1 & c1 & t1 & S1 & M1 & E1). head S1.
    exists (S n1), (CNeg c1), TInt. split; [constructor|]. split; [constructor|]. intros n L; more n.
    unfold good_at in *; cbn [check_expr]. rewrite E1 by lia. reflexivity.
  - intros F f ts args us t _ HA _ HC L. eapply call_ok2; eassumption.
  - intros F l x ts args u us t _ HL NF _ HA _ HC L. eapply method_ok2; eassumption.
  - intros F l x ts args u t _ HL HF _ HC F' A. destruct (HL F' A) as (n1 & c1 & t1 & S1 & M1 & E1).
    destruct (HC F' A) as (n2 & c2 & t2 & S2 & M2 & E2). exists (S (n1 + n2)), c2, t2. split; [exact S2|]. split; [exact M2|].
    intros n L; more n. unfold good_at in *; cbn [check_expr]. rewrite E1 by lia. cbn [name_of].
    replace (CheckModel.has_field G t1 x) with true by (symmetry; apply (has_field_ok u t1 x S1), HF). rewrite E2 by lia. reflexivity.
  - intros F l b i u t _ HL _ HC F' A. destruct (HL F' A) as (n1 & c1 & t1 & S1 & M1 & E1).
    destruct (HC F' A) as (n2 & c2 & t2 & S2 & M2 & E2). exists (S (n1 + n2)), c2, t2. split; [exact S2|]. split; [exact M2|].
    intros n L; more n. unfold good_at in *; cbn [check_expr]. rewrite E1 by lia. rewrite E2 by lia. reflexivity.
  - intros F l d n ts ps fs x t _ HL En Ex F' A. destruct (HL F' A) as (n1 & c1 & t1 & S1 & M1 & E1). head S1. inversion M1; subst.
    destruct (field_found n us ps fs x t En Ex) as (t' & Et & St & Mt); [assumption|].
    exists (S n1), (CField c1 n x), t'. split; [|split; [exact Mt|]].
    + eapply same_trans; [|exact St]. apply apply_alike. intros p _. apply with_types_same; assumption.
    + intros m L; more m. unfold good_at in *; cbn [check_expr]. rewrite E1 by lia. cbn [select]. rewrite Et. reflexivity.
  - intros F l t _ HL F' A. destruct (HL F' A) as (n1 & c1 & t1 & S1 & M1 & E1). head S1.
    exists (S n1), (CLength c1), TInt. split; [constructor|]. split; [constructor|]. intros n L; more n.
    unfold good_at in *; cbn [check_expr]. rewrite E1 by lia. reflexivity.
  - intros F l _ HL F' A. destruct (HL F' A) as (n1 & c1 & t1 & S1 & M1 & E1). head S1.
    exists (S n1), (CLength c1), TInt. split; [constructor|]. split; [constructor|]. intros n L; more n.
    unfold good_at in *; cbn [check_expr]. rewrite E1 by lia. reflexivity.
  - intros F l r t _ IL _ IR F' A. destruct (IL F' A) as (n1 & c1 & t1 & S1 & M1 & E1). destruct (IR F' A) as (n2 & c2 & t2 & S2 & M2 & E2).
    head S1. head S2. inversion M1; subst. exists (S (n1 + n2)), (CIndex c1 c2), b. split; [assumption|]. split; [assumption|]. intros n L; more n.
    unfold good_at in *; cbn [check_expr]. rewrite E1, E2 by lia. reflexivity.
  - intros F e es t us _ HE _ HS Su F' A. destruct (HE F' A) as (n1 & c1 & t1 & S1 & M1 & E1). destruct (HS F' A) as (n2 & rs & S2 & M2 & E2).
    exists (S (n1 + n2)), (CArrLit (c1 :: map fst rs)), (TArr t1). split; [constructor; exact S1|]. split; [constructor; exact M1|].
    intros n L; more n. assert (Ee := E1 n ltac:(lia)). assert (Es := E2 n ltac:(lia)). unfold good_at in Ee |- *; cbn [check_expr array_lit].
    rewrite Ee. change (drop_errors []) with (@nil issue). rewrite (proj1 matches_equivalence t1). cbn [negb].
    rewrite (array_found n F' es rs t1 Es); [reflexivity|].
    clear -S1 S2 Su. revert rs S2. induction Su as [|u us Hu _ IH]; intros [|r rs] S2; inversion S2; subst; constructor; [|auto].
    eapply same_trans; [apply same_sym; eassumption|]. exact (same_trans _ _ _ Hu S1).
  - intros F c a b t u _ HC _ HA _ HB S F' A. destruct (HC F' A) as (n1 & c1 & t1 & S1 & M1 & E1).
    destruct (HA F' A) as (n2 & c2 & t2 & S2 & M2 & E2). destruct (HB F' A) as (n3 & c3 & t3 & S3 & M3 & E3). head S1.
    exists (1 + (n1 + n2 + n3)), (CTern c1 c2 c3), t2. split; [exact S2|]. split; [exact M2|].
    intros n L; more n. unfold good_at in *; cbn [check_expr]. rewrite E1, E2, E3 by lia.
    unfold ternary. change (drop_errors []) with (@nil issue). cbn [is_bool negb].
    replace (matches t2 t3) with true; [reflexivity|]. symmetry. apply matches_same.
    eapply same_trans; [apply same_sym; exact S2|]. exact (same_trans _ _ _ S S3).
  - intros F ps ret body N Mp Mr _ HB R F' A. destruct (params_declared [] ps F F' N Mp A) as (F1 & D & A1).
    destruct (HB F1 A1) as (n1 & ks & E). exists (S n1), (CClos ps ret ks), (TFun 0 [] (map snd ps) ret).
    split; [apply same_refl|]. split; [constructor; assumption|]. intros n L; more n. unfold good_at; cbn [check_expr]. rewrite D.
    replace (negb (is_nothing ret) && negb (last_terminates body)) with false.
    2:{ destruct R as [-> |R]; [reflexivity|]. apply (proj1 (proj2 ends_ok)) in R. rewrite R. cbn. now rewrite andb_false_r. }
    rewrite E by lia. reflexivity.
  - intros F ps ret e t N Mp Mr _ HE S F' A. destruct (params_declared [] ps F F' N Mp A) as (F1 & D & A1).
    destruct (HE F1 A1) as (n1 & c1 & t1 & S1 & M1 & E). exists (1 + n1), (CClosExpr ps ret c1), (TFun 0 [] (map snd ps) ret).
    split; [apply same_refl|]. split; [constructor; assumption|]. intros n L; more n. unfold good_at in *; cbn [check_expr]. rewrite D.
    rewrite E by lia. replace (matches ret t1) with true; [reflexivity|]. symmetry. apply matches_same. exact (same_trans _ _ _ S S1).
  - intros F F' A. exists 0, []. repeat split; constructor.
  - intros F e es t ts _ HE _ HS F' A. destruct (HE F' A) as (n1 & c1 & t1 & S1 & M1 & E1). destruct (HS F' A) as (n2 & rs & S2 & M2 & E2).
    exists (n1 + n2), ((c1, t1) :: rs). split; [constructor; assumption|]. split; [constructor; assumption|].
    intros n L. constructor; [apply E1; lia|apply E2; lia].
  - intros. eapply calls_root_ok; eassumption.
  - intros. eapply calls_print_ok; eassumption.
  - intros. eapply calls_value_ok; eassumption.
  - intros F ret e t _ HE F' A. destruct (HE F' A) as (n1 & c1 & t1 & S1 & M1 & E1). exists (S n1), F', (KExpr c1).
    split; [exact A|]. intros n L; more n. unfold good_at in *; cbn [check_stmt]. rewrite E1 by lia. reflexivity.
  - intros f F ret x e t _ HE N F' A. destruct (HE F' A) as (n1 & c1 & t1 & S1 & M1 & E1). inversion A as [|? f' ? F2 A1 A2]; subst.
    exists (S n1), (((x, LVar t1) :: f') :: F2), (KDas x c1). split; [constructor; [apply cons_agree; assumption|exact A2]|].
    intros n L; more n. unfold good_at in *; cbn [check_stmt]. rewrite E1 by lia. cbn [define].
    assert (Z := A1 x). apply assoc_none in N. rewrite N in Z. inversion Z as [Z1| |]. reflexivity.
  - intros F ret x e t u V _ HE S F' A. destruct (HE F' A) as (n1 & c1 & t1 & S1 & M1 & E1).
    destruct (visible_agree _ _ _ _ A V) as (t' & Ex & St & Mt). exists (2 + n1), F', (KAs (CVar x) c1). split; [exact A|].
    intros n L; more n. more n. assert (Q := E1 (Datatypes.S n) ltac:(lia)). unfold good_at in Q. cbn [check_stmt]. rewrite Q. cbn [check_expr]. unfold check_ident, resolve. rewrite Ex.
    cbn [fst snd assignment]. replace (matches t' t1) with true; [reflexivity|]. symmetry; apply matches_same.
    eapply same_trans; [apply same_sym; exact St|]. exact (same_trans _ _ _ S S1).
  - intros F ret l x e d n ts t u _ HL _ HD _ HE S F' A. destruct (HE F' A) as (n1 & c1 & t1 & S1 & M1 & E1).
    destruct (HL F' A) as (n2 & c2 & t2 & S2 & M2 & E2). destruct (HD F' A) as (n3 & c3 & t3 & S3 & M3 & E3). head S2.
    assert (C3 : c3 = CField c2 n x).
    { assert (Q3 := E3 (Datatypes.S (n2 + n3)) ltac:(lia)). assert (Q2 := E2 (n2 + n3) ltac:(lia)). unfold good_at in Q2, Q3. cbn [check_expr] in Q3.
      rewrite Q2 in Q3. cbn [select] in Q3. destruct (field_type G n us x); [injection Q3 as <- _; reflexivity|discriminate]. }
    subst c3. exists (1 + (n1 + n2 + n3)), F', (KAs (CField c2 n x) c1). split; [exact A|]. intros m L; more m.
    assert (Q1 := E1 m ltac:(lia)). assert (Q3 := E3 m ltac:(lia)). unfold good_at in Q1, Q3. cbn [check_stmt]. rewrite Q1, Q3.
    cbn [fst snd assignment]. replace (matches t3 t1) with true; [reflexivity|]. symmetry; apply matches_same.
    eapply same_trans; [apply same_sym; exact S3|]. exact (same_trans _ _ _ S S1).
  - intros F ret l i e t u _ HD _ HE S F' A. destruct (HE F' A) as (n1 & c1 & t1 & S1 & M1 & E1).
    destruct (HD F' A) as (n3 & c3 & t3 & S3 & M3 & E3).
    assert (C3 : exists a b, c3 = CIndex a b) by (eapply index_shape; apply (E3 n3); lia).
    destruct C3 as (a & b & ->). exists (1 + (n1 + n3)), F', (KAs (CIndex a b) c1). split; [exact A|]. intros m L; more m.
    assert (Q1 := E1 m ltac:(lia)). assert (Q3 := E3 m ltac:(lia)). unfold good_at in Q1, Q3. cbn [check_stmt]. rewrite Q1, Q3.
    cbn [fst snd assignment]. replace (matches t3 t1) with true; [reflexivity|]. symmetry; apply matches_same.
    eapply same_trans; [apply same_sym; exact S3|]. exact (same_trans _ _ _ S S1).
  - intros F ret l bb i e t u _ HD _ HE S F' A. destruct (HE F' A) as (n1 & c1 & t1 & S1 & M1 & E1).
    destruct (HD F' A) as (n3 & c3 & t3 & S3 & M3 & E3).
    assert (C3 : exists a b, c3 = CIndex a b) by (eapply dot_index_shape; apply (E3 n3); lia).
    destruct C3 as (a & b & ->). exists (1 + (n1 + n3)), F', (KAs (CIndex a b) c1). split; [exact A|]. intros m L; more m.
    assert (Q1 := E1 m ltac:(lia)). assert (Q3 := E3 m ltac:(lia)). unfold good_at in Q1, Q3. cbn [check_stmt]. rewrite Q1, Q3.
    cbn [fst snd assignment]. replace (matches t3 t1) with true; [reflexivity|]. symmetry; apply matches_same.
    eapply same_trans; [apply same_sym; exact S3|]. exact (same_trans _ _ _ S S1).
  - intros F ret c body _ HC _ HB F' A. destruct (HC F' A) as (n1 & c1 & t1 & S1 & M1 & E1). head S1.
    destruct (HB ([] :: F')) as (n2 & ks & E2); [constructor; [apply nil_agree|exact A]|].
    exists (S (n1 + n2)), F', (KWhile c1 ks). split; [exact A|]. intros n L; more n. unfold good_at in E1. cbn [check_stmt].
    rewrite E1 by lia. cbn [is_bool negb]. rewrite E2 by lia. reflexivity.
  - intros F ret x e t body _ HC _ HB F' A. destruct (HC F' A) as (n1 & c1 & t1 & S1 & M1 & E1). head S1. inversion M1; subst.
    destruct (HB ([(x, LVar b)] :: F')) as (n2 & ks & E2); [constructor; [apply var_agree; assumption|exact A]|].
    exists (S (n1 + n2)), F', (KForIn x c1 ks). split; [exact A|]. intros n L; more n. unfold good_at in E1. cbn [check_stmt].
    rewrite E1 by lia. rewrite E2 by lia. reflexivity.
  - intros F ret x a b body _ HA _ HC _ HB F' A. destruct (HA F' A) as (n1 & c1 & t1 & S1 & M1 & E1). head S1.
    destruct (HC F' A) as (n3 & c3 & t3 & S3 & M3 & E3). head S3.
    destruct (HB ([(x, LVar TInt)] :: F')) as (n2 & ks & E2); [constructor; [apply var_agree; constructor|exact A]|].
    exists (S (n1 + n2 + n3)), F', (KForRange x c1 c3 ks). split; [exact A|]. intros n L; more n. unfold good_at in E1, E3. cbn [check_stmt].
    rewrite E1, E3 by lia. cbn [binary fst snd is_int negb matches app]. rewrite E2 by lia. reflexivity.
  - intros F ret c body _ HC _ HB F' A. destruct (HC F' A) as (n1 & c1 & t1 & S1 & M1 & E1). head S1.
    destruct (HB ([] :: F')) as (n2 & ks & E2); [constructor; [apply nil_agree|exact A]|].
    exists (S (n1 + n2)), F', (KIf c1 ks None). split; [exact A|]. intros n L; more n. unfold good_at in E1. cbn [check_stmt].
    rewrite E1 by lia. cbn [is_bool negb]. rewrite E2 by lia. reflexivity.
  - intros F ret c body r F1 _ HC _ HB _ HR F' A. destruct (HC F' A) as (n1 & c1 & t1 & S1 & M1 & E1). head S1.
    destruct (HB ([] :: F')) as (n2 & ks & E2); [constructor; [apply nil_agree|exact A]|]. destruct (HR F' A) as (n3 & F3 & k3 & A3 & E3).
    exists (S (n1 + n2 + n3)), F', (KIf c1 ks (Some k3)). split; [exact A|]. intros n L; more n. unfold good_at in E1. cbn [check_stmt].
    rewrite E1 by lia. cbn [is_bool negb]. rewrite E2, E3 by lia. reflexivity.
  - intros F ret body _ HB F' A. destruct (HB ([] :: F')) as (n2 & ks & E2); [constructor; [apply nil_agree|exact A]|].
    exists (S n2), F', (KElse ks). split; [exact A|]. intros n L; more n. cbn [check_stmt]. rewrite E2 by lia. reflexivity.
  - intros F F' A. exists 1, F', (KReturn None). split; [exact A|]. intros n L; more n. reflexivity.
  - intros F ret e t _ HE S F' A. destruct (HE F' A) as (n1 & c1 & t1 & S1 & M1 & E1). exists (1 + n1), F', (KReturn (Some c1)).
    split; [exact A|]. intros n L; more n. unfold good_at in E1. cbn [check_stmt]. rewrite E1 by lia.
    replace (matches ret t1) with true; [reflexivity|]. symmetry; apply matches_same. exact (same_trans _ _ _ S S1).
  - intros F ret e d n us ps ms cs members _ HE En Cs HC N I F' A. destruct (HE F' A) as (n1 & c1 & t1 & S1 & M1 & E1). head S1. inversion M1; subst.
    destruct (tidy_enums _ T _ _ _ En) as [Np Nm].
    destruct (HC F' (match us0 with [] => [] | _ => bind_all ps us0 [] end) ms [] A) as (n2 & ks & E2); eauto.
    { intros p. replace (given (match us0 with [] => [] | _ => bind_all ps us0 [] end) p) with (with_types ps us0 p); [apply with_types_same; assumption|].
      destruct us0; [|symmetry; apply given_with; exact Np]. destruct ps; reflexivity. }
    { destruct us0; [intros p u H9; discriminate|]. apply bind_all_mono; [intros p u H9; discriminate|assumption]. }
    { intros f; apply I. }
    exists (S (n1 + n2)), F', (KMatch c1 n ks). split; [exact A|]. intros m L; more m. unfold good_at in E1. cbn [check_stmt].
    rewrite E1 by lia. apply entry_assoc in En. rewrite En. rewrite E2 by lia. cbn [app errors filter].
    replace (List.length cs =? List.length ms) with true; [reflexivity|]. symmetry; apply Nat.eqb_eq.
    rewrite <- (cases_length _ _ _ _ _ _ _ Cs). apply Nat.le_antisymm; apply NoDup_incl_length; auto; intros f; apply I.
  - intros F ret F' A. exists 0, []. reflexivity.
  - intros F ret s F1 ss _ HS _ HB F' A. destruct (HS F' A) as (n1 & F1' & k & A1 & E1). destruct (HB F1' A1) as (n2 & ks & E2).
    exists (n1 + n2), (k :: ks). intros n L. cbn [check_block]. rewrite E1 by lia. rewrite E2 by lia. reflexivity.
  - intros F ret ps us F' b ms seen _ _ _ _ _ _ _. exists 0, []. reflexivity.
  - intros F ret ps us x xs body cs f i g qs r more members Hx En L N _ HB _ HC F' b ms seen A Sb Mb Ie Nd Im Is.
    inversion Nd as [|? ? Nf Nr]; subst. destruct Ie as [name Ie].
    destruct (tidy_names _ T _ _ _ _ _ _ _ En (or_introl eq_refl)) as (_ & Mq & _).
    assert (Mem : exists tag, member ms f = Some tag).
    { assert (If : In f ms) by (apply Im; left; reflexivity). clear -If. induction ms as [|m ms IH]; [contradiction|]. cbn.
      destruct (Nat.eqb_spec m f); [eauto|]. destruct If as [->|If]; [congruence|]. destruct (IH If) as [tag ->]. eauto. }
    destruct Mem as [tag Mem].
    assert (Ic : is_cons G f = true).
    { unfold is_cons. apply existsb_exists. exists (name, (ps, ms)). split; [apply assoc_in; apply entry_assoc in Ie; exact Ie|]. cbn. rewrite Mem. reflexivity. }
    destruct (HB (rev (combine xs (map LVar (map (fun p => subst p b) qs))) :: F')) as (n1 & kb & E1).
    { constructor; [|exact A]. intros y. rewrite assoc_rev.
      - rewrite <- (map_map (fun q => apply (with_types ps us) q) LVar). apply combine_agree.
        clear -Sb Mb Mq. induction qs as [|q qs IH]; cbn; constructor; inversion Mq; subst; auto. split; [|apply subst_mono; assumption].
        apply same_sym. eapply same_trans; [apply subst_same|]. apply apply_alike. intros p _. apply same_sym, Sb.
      - rewrite combine_names; [exact N|]. rewrite !map_length. exact L. }
    destruct (HC F' b ms (f :: seen) A Sb Mb) as (n2 & ks & E2); eauto.
    { intros f0 I0; apply Im; right; exact I0. }
    { intros f0 I0 [-> |I1]; [contradiction|]. apply (Is f0); [right; exact I0|exact I1]. }
    exists (n1 + n2), ((tag, xs, kb) :: ks). intros n Ln. cbn [check_cases]. rewrite (root_entry _ _ _ _ A Hx En). rewrite Ic.
    rewrite L, Nat.eqb_refl. cbn [negb]. rewrite case_declared; [|rewrite map_length; exact L|rewrite app_nil_r; apply NoDup_rev; exact N].
    rewrite app_nil_r. rewrite E1 by lia. rewrite Mem.
    replace (existsb (Nat.eqb f) seen) with false.
    2:{ symmetry. apply not_true_is_false. intros Z. apply existsb_exists in Z. destruct Z as (z & Iz & Ez). apply Nat.eqb_eq in Ez; subst z.
        apply (Is f); [left; reflexivity|exact Iz]. }
    rewrite E2 by lia. reflexivity.
Qed.

Lemma fun_accepted : forall d, In d (p_funs P) -> fun_fits P d -> exists n0, forall n, n0 <= n -> fst (check_fun n G d) = [].
Proof.
  intros d I H. destruct (tidy_funs _ T d I) as [Mp Mr]. unfold fun_fits in H. unfold check_fun.
  assert (D : NoDup (map fst (f_types d) ++ map fst (f_params d)) -> exists F1, declare [[]] (fn_entries (f_types d) (f_params d)) = Some F1 /\
    scopes_agree [params (f_types d) (f_params d)] F1).
  { intros N. apply params_declared; auto. }
  destruct (f_body d) as [body|e|s|s tag|].
  - destruct H as (N & B & R). destruct (D N) as (F1 & E & A). rewrite E.
    destruct (proj1 (proj2 (proj2 (proj2 (proj2 rules_complete)))) _ _ _ B F1 A) as (n0 & ks & E1). exists n0. intros n L.
    replace (negb (is_nothing (f_ret d)) && negb (last_terminates body)) with false.
    2:{ destruct R as [-> |R]; [reflexivity|]. apply (proj1 (proj2 ends_ok)) in R. rewrite R. cbn. now rewrite andb_false_r. }
    rewrite E1 by exact L. reflexivity.
  - destruct H as (N & t & B & S). destruct (D N) as (F1 & E & A). rewrite E.
    destruct (proj1 rules_complete _ _ _ B F1 A) as (n0 & c & t' & S1 & _ & E1). exists n0. intros n L.
    assert (Q := E1 n L). unfold good_at in Q. rewrite Q. replace (matches (f_ret d) t') with true; [reflexivity|].
    symmetry; apply matches_same. exact (same_trans _ _ _ S S1).
  - exists 0; reflexivity.
  - exists 0; reflexivity.
  - destruct (D H) as (F1 & E & A). exists 0. intros n _. rewrite E. reflexivity.
Qed.
End Complete.

Theorem follows_accepted : forall P, follows_the_rules P -> exists n0, forall n, n0 <= n -> check_program n P = [].
Proof.
  intros P [T H]. unfold check_program. assert (K : forall d, In d (p_funs P) -> In d (p_funs P)) by auto.
  revert K H. generalize (p_funs P) at 1 3 4. induction l as [|d l IH]; intros K H; [exists 0; reflexivity|].
  inversion H; subst. destruct (fun_accepted P T d (K d (or_introl eq_refl)) H2) as (n1 & E1).
  destruct (IH (fun d0 I => K d0 (or_intror I)) H3) as (n2 & E2). exists (n1 + n2). intros n L. cbn [flat_map].
  rewrite E1, E2 by lia. reflexivity.
Qed.

Lemma self_agree : forall F, Forall (fun f => forall x u, entry x f (LVar u) -> mono u) F -> scopes_agree F F.
Proof.
  induction 1 as [|f F H _ IH]; constructor; [|exact IH]. intros x. destruct (assoc x f) as [[t|t]|] eqn:E; constructor; [apply same_refl|].
  apply (H x). apply entry_assoc, E.
Qed.
Theorem type_found : forall P F e t, tidy P -> Forall (fun f => forall x u, entry x f (LVar u) -> mono u) F ->
  has P F e t -> exists n0 c t', same t t' /\ forall n, n0 <= n -> check_expr n (p_env P) F e = ([], Some (c, t')).
Proof.
  intros P F e t T M H. destruct (proj1 (rules_complete P T) F e t H F (self_agree F M)) as (n0 & c & t' & S & _ & E).
  exists n0, c, t'. split; [exact S|exact E].
Qed.
