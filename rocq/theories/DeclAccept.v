(** Good declarations are accepted (for C53). *)
From Coq Require Import String Ascii List Bool PeanoNat Lia Permutation.
From Verif Require Import TypeModel TypeSpec TypeGraph CheckModel CheckSpec DeclModel DeclSpec DeclProofs DeclNames.
Import ListNotations.
Local Open Scope string_scope.
Local Open Scope nat_scope.
Local Open Scope list_scope.

Lemma own_params_good : forall tps next tbl, NoDup (map fst tbl ++ tps) -> exists t n, own_params next tbl tps = ([], t, n).
Proof.
  induction tps as [|x tps IH]; intros next tbl N; cbn; [eauto|]. destruct (assoc x tbl) eqn:A.
  - exfalso. assert (In x (map fst tbl)). { destruct (in_dec string_dec x (map fst tbl)); auto. apply assoc_none in n0. congruence. }
    eapply nodup_disjoint; [exact N| |]; eauto; cbn; auto.
  - apply IH. rewrite map_app, <- app_assoc. exact N.
Qed.

Lemma pass1_good : forall ds next root, (forall d, In d ds -> NoDup (decl_params d)) -> NoDup (map decl_name ds) ->
  (forall d, In d ds -> assoc (decl_name d) root = None) -> exists l n root', pass1 next root ds = ([], l, n, root').
Proof.
  induction ds as [|d ds IH]; intros next root P N A; cbn; [eauto|].
  destruct (own_params_good (decl_params d) next []) as (tbl & n1 & ->); [cbn; apply P; cbn; auto|].
  unfold define_type. rewrite (A d) by (cbn; auto). inversion N; subst.
  destruct (IH n1 ((decl_name d, Rsym (Some (true, decl_type d tbl)) []) :: root)) as (l & n & root' & ->); eauto.
  - intros; apply P; cbn; auto.
  - intros d' I. cbn. destruct (String.eqb_spec (decl_name d') (decl_name d)) as [Q|]; [|apply A; cbn; auto].
    exfalso. apply H1. apply in_map_iff. eauto.
Qed.

(** Names of types are known. *)
Definition knows (ar : list (string * nat)) (root : rtab) : Prop :=
  forall x n, In (x, n) ar -> exists t, types_of root x = Some (true, t) /\
    (n <> 0 -> exists k ts, List.length ts = n /\ (t = TStruct k x ts \/ t = TEnum k x ts)).
Lemma knows_env : forall ar root scope x n, knows ar root -> In (x, n) ar -> exists t, type_env scope root x = Some t.
Proof.
  intros ar root scope x n K I. unfold type_env. destruct (assoc x scope); eauto. destruct (K _ _ I) as (t & T & _). unfold types_of in T.
  destruct (assoc x root) as [[o ?]|]; [|discriminate]. cbn in T; subst. eauto.
Qed.
Lemma param_env : forall root scope x, In x (map fst scope) -> exists t, type_env scope root x = Some t.
Proof.
  intros root scope x I. unfold type_env. destruct (assoc x scope) eqn:A; eauto. apply assoc_none in A. contradiction.
Qed.
Lemma known_good : forall ar root scope e, knows ar root -> well_written ar (map fst scope) e -> known_type (type_env scope root) e = true.
Proof.
  intros ar root scope e K; induction e as [n|n es IH|es IH|es r IH IHr|x IH] using texp_induct; intros W; inversion W; subst; cbn.
  - destruct (param_env root scope n) as (t & ->); auto.
  - destruct (knows_env ar root scope n n0) as (t & ->); auto.
  - destruct (knows_env ar root scope n (List.length es)) as (t & ->); auto. apply forallb_forall. intros e I. rewrite Forall_forall in *. auto.
  - rewrite andb_true_r. apply forallb_forall. intros e I. rewrite Forall_forall in *. auto.
  - rewrite IHr by auto. rewrite andb_true_r. apply forallb_forall. intros e I. rewrite Forall_forall in *. auto.
  - auto.
Qed.
Lemma inst_good : forall ar root scope e, knows ar root -> well_written ar (map fst scope) e ->
  exists t, instantiate (type_env scope root) e = ([], Some t).
Proof.
  intros ar root scope e K. 
  assert (ALL : forall es, Forall (fun e => well_written ar (map fst scope) e -> exists t, instantiate (type_env scope root) e = ([], Some t)) es ->
    Forall (well_written ar (map fst scope)) es -> flat_map fst (map (instantiate (type_env scope root)) es) = [] /\
    exists ts, all_some (map snd (map (instantiate (type_env scope root)) es)) = Some ts).
  { clear e. induction es as [|e es IH]; intros F W; cbn; [eauto|]. inversion F; subst. inversion W; subst. destruct (H1 H3) as (t & ->). cbn.
    destruct (IH H2 H4) as (Z & ts & A). rewrite A. eauto. }
  induction e as [n|n es IH|es IH|es r IH IHr|x IH] using texp_induct; intros W; inversion W; subst; cbn.
  - destruct (param_env root scope n) as (t & ->); eauto.
  - destruct (knows_env ar root scope n n0) as (t & ->); eauto.
  - destruct (K _ _ H2) as (t & T & G). unfold type_env at 1. rewrite (proj2 (assoc_none _ _) H1). unfold types_of in T.
    destruct (assoc n root) as [[o ?]|]; [|discriminate]. cbn in T; subst o. destruct (ALL es IH ltac:(auto)) as (Z & ts & A). rewrite Z, A.
    destruct (G H3) as (k & us & L & [-> | ->]); rewrite L, Nat.eqb_refl; destruct (Nat.eqb_spec (List.length es) 0); try contradiction; cbn; eauto.
  - rewrite app_nil_r. destruct (ALL es IH ltac:(auto)) as (Z & ts & A). rewrite Z, A. eauto.
  - destruct (IHr ltac:(auto)) as (t & ->). destruct (ALL es IH ltac:(auto)) as (Z & ts & A). rewrite Z. cbn. rewrite A. eauto.
  - destruct (IH ltac:(auto)) as (t & ->). eauto.
Qed.

Lemma check_params_good : forall ar root scope ps tk, knows ar root -> Forall (fun p => well_written ar (map fst scope) (snd p)) ps ->
  NoDup (tk ++ map fst ps) -> check_params (type_env scope root) tk ps = [].
Proof.
  intros ar root scope; induction ps as [|[x e] ps IH]; intros tk K W N; cbn; auto. inversion W; subst. cbn in *. rewrite (known_good ar) by auto. cbn.
  destruct (existsb (String.eqb x) tk) eqn:X.
  - exfalso. apply existsb_str in X. eapply nodup_disjoint; [exact N| |]; eauto; cbn; auto.
  - apply IH; auto. cbn. eapply Permutation_NoDup; [|exact N]. symmetry. apply Permutation_cons_app. reflexivity.
Qed.
Lemma add_fields_good : forall ar root scope fs tk, knows ar root -> Forall (fun p => well_written ar (map fst scope) (snd p)) fs ->
  NoDup (tk ++ map fst fs) -> exists l, add_fields (type_env scope root) tk fs = ([], l).
Proof.
  intros ar root scope; induction fs as [|[x e] fs IH]; intros tk K W N; cbn; eauto. inversion W; subst. cbn in *. rewrite (known_good ar) by auto. cbn.
  destruct (existsb (String.eqb x) tk) eqn:X.
  - exfalso. apply existsb_str in X. eapply nodup_disjoint; [exact N| |]; eauto; cbn; auto.
  - destruct (IH (x :: tk)) as (l & ->); eauto. cbn. eapply Permutation_NoDup; [|exact N]. symmetry. apply Permutation_cons_app. reflexivity.
Qed.
Lemma knows_same : forall ar r1 r2, same_types r1 r2 -> knows ar r2 -> knows ar r1.
Proof. intros ar r1 r2 S K x n I. rewrite S. exact (K x n I). Qed.

(** A function is entered if its name may be taken. *)
Lemma process_fn_good : forall ar root next f outer x tps ps ret b ov, knows ar root -> (ov = false -> assoc x root = None) ->
  NoDup (tps ++ map fst ps) -> 
  (forall own, map fst own = tps -> Forall (fun p => well_written ar (map fst (own ++ outer)) (snd p)) ps /\
     match ret with Some e => well_written ar (map fst (own ++ outer)) e | None => True end) ->
  exists root' next' sig, process_fn root next f outer x tps ps ret b ov = ([], root', next', sig) /\ define_fun root x f ov = Some root'.
Proof.
  intros ar root next f outer x tps ps ret b ov K A N W. unfold process_fn.
  destruct (own_params_good tps next []) as (own & n & O); [cbn; eapply nodup_app_l; eauto|]. rewrite O.
  assert (D : exists root', define_fun root x f ov = Some root').
  { unfold define_fun. destruct (assoc x root) eqn:Q; [|eauto]. destruct ov; [eauto|]. specialize (A eq_refl). congruence. }
  destruct D as (root' & D). rewrite D. destruct (define_fun_ok _ _ _ _ _ D) as (T & _). assert (K' : knows ar root') by (eapply knows_same; [exact T|exact K]).
  destruct (numbered_own _ _ _ _ O) as ((M & _) & _ & _). destruct (W own M) as (W1 & W2).
  rewrite (check_params_good ar) by (auto; rewrite M; auto). eexists _, _, _. split; [|reflexivity]. destruct ret as [e|]; [|reflexivity]. rewrite (known_good ar) by auto. reflexivity.
Qed.

Definition within (root : rtab) (K : list string) : Prop := forall y, assoc y root <> None -> In y K.
Lemma within_none : forall root K y, within root K -> ~ In y K -> assoc y root = None.
Proof. intros root K y W N. destruct (assoc y root) eqn:A; auto. exfalso. apply N, W. congruence. Qed.
Lemma define_fun_within : forall root x f ov root' K, define_fun root x f ov = Some root' -> within root K -> within root' (x :: K).
Proof.
  intros root x f ov root' K D W y Y; unfold define_fun in D. destruct (assoc x root) eqn:A.
  - destruct ov; [|discriminate]. injection D as <-. rewrite add_fun_assoc in Y. right. apply W. destruct (String.eqb x y); [destruct (assoc y root); congruence|auto].
  - injection D as <-. cbn in Y. destruct (String.eqb_spec y x) as [Q|]; [left; auto|right; apply W; auto].
Qed.

Lemma add_members_good : forall ar ms s x tbl tag K, st_errs s = [] -> knows ar (st_root s) -> within (st_root s) K ->
  NoDup (map fst ms) -> (forall y, In y (map fst ms) -> ~ In y K) ->
  (exists n, In (x, n) ar) -> 
  (forall y ps, In (y, ps) ms -> NoDup (map fst ps) /\ List.length ps <= 5 /\ Forall (fun p => well_written ar (map fst tbl) (snd p)) ps) ->
  exists s' l, add_members s x tbl tag ms = (s', l) /\ st_errs s' = [] /\ same_types (st_root s') (st_root s) /\ within (st_root s') (map fst ms ++ K).
Proof.
  intros ar; induction ms as [|[y ps] ms IH]; intros s x tbl tag K E Kn W N D X G; cbn [add_members].
  - eexists _, _; repeat split; auto.
  - destruct (G y ps) as (G1 & G2 & G3); [cbn; auto|]. destruct X as (n & X).
    destruct (process_fn_good ar (st_root s) (st_next s) (next_fun s) tbl y [] ps (Some (XNamed x None)) (SCons x tag) false) as (root' & next' & sig & P & F); auto.
    + intros _. eapply within_none; eauto. apply D. cbn; auto.
    + intros own Q. destruct own; [|discriminate]. cbn. split; auto. eapply ww_name; eauto.
    + rewrite P. destruct (Nat.ltb_spec max_case_args (List.length ps)) as [L|_]; [unfold max_case_args in L; lia|].
      destruct (define_fun_ok _ _ _ _ _ F) as (T & _). inversion N; subst.
      edestruct (IH (State (st_errs s ++ []) root' next' (st_funs s ++ [sig]) (st_structs s) (st_enums s)) x tbl (S tag) (y :: K)) as (s' & l & A & B & C & H); cbn [st_errs st_root]; auto.
      * rewrite E; auto.
      * eapply knows_same; eauto.
      * eapply define_fun_within; eauto.
      * intros z I [->|J]; [contradiction|]. eapply D; eauto. cbn; auto.
      * eauto.
      * intros y0 ps0 J; apply (G y0 ps0); cbn; auto.
      * rewrite A. eexists _, _; split; [reflexivity|]. repeat split; auto.
        -- intros z. rewrite C. cbn. apply T.
        -- intros z Z. apply H in Z. cbn. apply in_app_or in Z as [Z|[->|Z]]; [right; apply in_or_app; auto|auto|right; apply in_or_app; auto].
Qed.

Section Good.
  Variables (ds : list decl) (cs : list string).
  Hypothesis G : good ds cs.
  Let ar := arities ds.

  Lemma g_params : forall d, In d ds -> NoDup (decl_params d).
  Proof.
    intros d I. pose proof (good_decls _ _ G d I) as D. destruct d; cbn; [eapply nodup_app_l; apply D|apply D|constructor].
  Qed.
  Lemma taken_std : map fst std = taken. Proof. reflexivity. Qed.
  Lemma fn_name_bracket : forall d, In d ds -> match d with DFn _ _ _ _ _ => True | _ => In (decl_name d) (type_names ds) end.
  Proof. intros d I. destruct d; auto; unfold type_names; apply in_flat_map; eexists; split; [exact I|cbn; auto|exact I|cbn; auto]. Qed.
  Lemma bracket_not_ok : forall a b, ~ name_ok (a ++ "(" ++ b)%string.
  Proof. intros a b N. exact (N a b eq_refl). Qed.
  Lemma taken_ok : Forall name_ok taken.
  Proof.
    repeat (apply Forall_cons; [intros a b Q; repeat (destruct a as [|? a]; cbn in Q; [discriminate Q|first [injection Q as _ Q|discriminate Q]])|]); apply Forall_nil.
  Qed.
  Lemma fresh_std : forall d, In d ds -> assoc (decl_name d) std = None.
  Proof.
    intros d I. apply assoc_none. rewrite taken_std. intros T. pose proof (fn_name_bracket d I) as F. destruct d as [x tps fs|x tps ms|x tps ps r b].
    - eapply nodup_disjoint; [exact (good_names _ _ G)|exact T|apply in_or_app; left; exact F].
    - eapply nodup_disjoint; [exact (good_names _ _ G)|exact T|apply in_or_app; left; exact F].
    - pose proof taken_ok as O. rewrite Forall_forall in O. apply O in T. eapply bracket_not_ok; exact T.
  Qed.

  Definition base : list string := taken ++ map decl_name ds ++ fun_names ds.
  Lemma not_in_base : forall y, In y (member_names ds ++ cs) -> ~ In y base.
  Proof.
    intros y Y B. unfold base in B. assert (O : Forall name_ok (type_names ds ++ member_names ds ++ cs)) by (eapply Forall_impl; [|exact (good_idents _ _ G)]; exact word_name_ok). rewrite Forall_forall in O.
    apply in_app_or in B as [B|B].
    - eapply nodup_disjoint; [exact (good_names _ _ G)|exact B|apply in_or_app; right; exact Y].
    - apply in_app_or in B as [B|B].
      + apply in_map_iff in B as (d & <- & I). pose proof (fn_name_bracket d I) as F. destruct d as [x tps fs|x tps ms|x tps ps r b].
        1,2: pose proof (good_names _ _ G) as N; apply Permutation_NoDup with (l' := (type_names ds ++ member_names ds ++ cs) ++ taken) in N; [|apply Permutation_app_comm];
             apply nodup_app_l in N; eapply nodup_disjoint; [exact N|exact F|exact Y].
        eapply bracket_not_ok. apply (O _ (in_or_app _ _ _ (or_intror Y))).
      + eapply (good_funs _ _ G); eauto.
  Qed.
  Lemma members_nodup : NoDup (member_names ds ++ cs).
  Proof.
    pose proof (good_names _ _ G) as N. apply Permutation_NoDup with (l' := (member_names ds ++ cs) ++ (taken ++ type_names ds)) in N; [eapply nodup_app_l; eauto|].
    rewrite app_assoc. apply Permutation_app_comm.
  Qed.

  Lemma pass2_good : forall done d rest s tbl, ds = done ++ d :: rest -> numbered (decl_params d) tbl -> st_errs s = [] -> knows ar (st_root s) ->
    within (st_root s) (member_names done ++ base) ->
    st_errs (pass2 s (d, tbl)) = [] /\ same_types (st_root (pass2 s (d, tbl))) (st_root s) /\
    within (st_root (pass2 s (d, tbl))) (member_names (done ++ [d]) ++ base).
  Proof.
    intros done d rest s tbl Q [M _] E K W. assert (I : In d ds) by (rewrite Q; apply in_or_app; cbn; auto).
    pose proof (good_decls _ _ G d I) as D. unfold pass2; cbn [fst snd]. unfold member_names. rewrite flat_map_app. fold (member_names done).
    destruct d as [x tps fs|x tps ms|x tps ps r b]; cbn [decl_params flat_map] in *.
    - destruct D as [D1 D2]. destruct (add_fields_good ar (st_root s) tbl fs (map fst tbl)) as (l & A); [auto|rewrite M; auto|rewrite M; auto|]. rewrite A.
      cbn. rewrite E. repeat split; auto. rewrite app_nil_r; auto.
    - destruct D as [D1 D2]. assert (Mn : NoDup (member_names done ++ map fst ms ++ member_names rest)).
      { pose proof (nodup_app_l _ _ members_nodup) as N. rewrite Q in N. unfold member_names in N. rewrite flat_map_app in N. exact N. }
      destruct (add_members_good ar ms s x tbl 0 (member_names done ++ base)) as (s' & l & A & B & C & H); auto.
      + apply Permutation_NoDup with (l' := (map fst ms ++ member_names rest) ++ member_names done) in Mn; [|apply Permutation_app_comm].
        apply nodup_app_l in Mn. apply nodup_app_l in Mn. auto.
      + intros y Y Z. apply in_app_or in Z as [Z|Z].
        * eapply nodup_disjoint; [exact Mn|exact Z|apply in_or_app; auto].
        * eapply not_in_base; [|exact Z]. apply in_or_app; left. unfold member_names. apply in_flat_map. eexists; split; [exact I|exact Y].
      + exists (List.length tps). unfold ar, arities. apply in_or_app; right. apply in_flat_map. eexists; split; [exact I|cbn; auto].
      + intros y ps J. rewrite M. apply D2 in J. exact J.
      + rewrite A. cbn. repeat split; auto. intros y Y. apply H in Y. rewrite app_nil_r, <- app_assoc. apply in_app_or in Y as [Y|Y]; [apply in_or_app; right; apply in_or_app; auto|].
        apply in_app_or in Y as [Y|Y]; apply in_or_app; [auto|right; apply in_or_app; auto].
    - assert (B : In x base) by (unfold base; rewrite !in_app_iff; right; right; unfold fun_names; apply in_flat_map; eexists; split; [exact I|cbn; auto]).
      destruct D as (D1 & D2 & D3). destruct (process_fn_good ar (st_root s) (st_next s) (next_fun s) [] x tps ps r (SFn b) true) as (root' & next' & sig & P & F); auto.
      + discriminate.
      + intros own O. rewrite app_nil_r, O. auto.
      + rewrite P. cbn. rewrite E. repeat split; auto. 
        * exact (proj1 (define_fun_ok _ _ _ _ _ F)).
        * intros y Y. eapply define_fun_within in Y; [|exact F|exact W]. rewrite app_nil_r. destruct Y as [<-|Y]; auto.
          apply in_or_app; right. exact B.
  Qed.
  Lemma fold_good : forall l done s, ds = done ++ map fst l -> Forall (fun d => numbered (decl_params (fst d)) (snd d)) l -> st_errs s = [] -> knows ar (st_root s) ->
    within (st_root s) (member_names done ++ base) ->
    st_errs (fold_left pass2 l s) = [] /\ same_types (st_root (fold_left pass2 l s)) (st_root s) /\ within (st_root (fold_left pass2 l s)) (member_names ds ++ base).
  Proof.
    induction l as [|[d tbl] l IH]; intros done s Q N E K W; cbn in *.
    - rewrite app_nil_r in Q; subst done. repeat split; auto.
    - pose proof (Forall_inv N) as N1. pose proof (Forall_inv_tail N) as N2. destruct (pass2_good done d (map fst l) s tbl Q) as (A & B & C); auto.
      destruct (IH (done ++ [d]) (pass2 s (d, tbl))) as (A' & B' & C'); auto.
      + rewrite <- app_assoc; auto.
      + eapply knows_same; eauto.
      + repeat split; auto. intros x. rewrite B'. apply B.
  Qed.

  Lemma knows_root : forall l root1, map fst l = ds -> Forall (fun d => numbered (decl_params (fst d)) (snd d) /\ NoDup (decl_params (fst d))) l ->
    root1 = rev (map type_entry l) ++ std -> NoDup (map fst root1) -> knows ar root1.
  Proof.
    intros l root1 L N R ND x n I. unfold ar, arities in I. apply in_app_or in I as [I|I].
    - apply in_map_iff in I as ((y & t) & Q & I). cbn in Q. injection Q as -> <-. exists t. split; [|congruence].
      unfold types_of. rewrite (in_assoc _ _ (Rsym (Some (true, t)) []) ND); auto. rewrite R. apply in_or_app; right.
      cbn in I. decompose [or] I; try contradiction; match goal with K : (_, _) = (_, _) |- _ => inversion K; subst; cbn; tauto end.
    - apply in_flat_map in I as (d & I & J). rewrite <- L in I. apply in_map_iff in I as ([d' tbl] & Q & I). cbn in Q; subst d'.
      rewrite Forall_forall in N. specialize (N _ I). cbn in N. destruct N as [[N _] _].
      assert (E : In (type_entry (d, tbl)) root1) by (rewrite R; apply in_or_app; left; rewrite <- in_rev; apply in_map; auto).
      destruct d as [y tps fs|y tps ms|]; cbn in J; [destruct J as [J|[]]|destruct J as [J|[]]|contradiction]; injection J as -> <-; unfold type_entry in E; cbn [fst snd decl_name] in E;
        (eexists; split; [unfold types_of; rewrite (in_assoc _ _ _ ND E); reflexivity|]); intros _; cbn; eexists _, _; (split; [|eauto]);
        rewrite !map_length; cbn in N; rewrite <- N, map_length; auto.
  Qed.

  Lemma inst_all_good : forall root scope (ps : list (string * texp)), knows ar root -> Forall (fun p => well_written ar (map fst scope) (snd p)) ps ->
    flat_map (fun p => fst (instantiate (type_env scope root) (snd p))) ps = [].
  Proof.
    intros root scope ps K; induction ps as [|[x e] ps IH]; intros W; cbn; auto. inversion W; subst. destruct (inst_good ar root scope e K) as (t & ->); auto.

  Qed.

  Lemma flat_map_nil_intro : forall {A B} (f : A -> list B) l, (forall a, In a l -> f a = []) -> flat_map f l = [].
  Proof. intros A B f; induction l as [|a l IH]; intros H; cbn; auto. rewrite (H a), IH; cbn; auto. intros; apply H; cbn; auto. Qed.

  Lemma upper_capital : forall x y, capital x y -> exists c rest, x = String c rest /\ String.eqb (upper c) (String c "") = false /\ (upper c ++ rest)%string = y.
  Proof.
    intros x y C. inversion C as [n rest L]; subst. exists (ascii_of_nat n), rest. split; auto.
    assert (T : forall k, 97 <= k <= 122 -> String.eqb (upper (ascii_of_nat k)) (String (ascii_of_nat k) "") = false /\ upper (ascii_of_nat k) = String (ascii_of_nat (k - 32)) "").
    { intros k H. assert (F : Forall (fun k => String.eqb (upper (ascii_of_nat k)) (String (ascii_of_nat k) "") = false /\ upper (ascii_of_nat k) = String (ascii_of_nat (k - 32)) "") (seq 97 26)).
      { cbn. repeat (apply Forall_cons; [split; reflexivity|]). apply Forall_nil. }
      rewrite Forall_forall in F. apply F. apply in_seq. lia. }
    destruct (T n L) as [A B]. split; auto. rewrite B. reflexivity.
  Qed.
  Lemma add_constructors_good : forall l cs' root names funs, Forall2 capital (map fst l) cs' -> NoDup cs' -> (forall y, In y cs' -> assoc y root = None) ->
    exists root' all, add_constructors root names funs l = Some ([], root', all).
  Proof.
    induction l as [|[x [tbl fs]] l IH]; intros cs' root nms funs F N A; cbn in F; inversion F; subst; cbn [add_constructors]; [eauto|].
    inversion N; subst. destruct (upper_capital _ _ H1) as (c & rest & -> & U & <-). unfold struct_cons. rewrite U. rewrite (A (upper c ++ rest)%string) by (cbn; auto).
    eapply IH; eauto. intros z Z. cbn. destruct (String.eqb_spec z (upper c ++ rest)) as [->|]; [contradiction|]. apply A; cbn; auto.
  Qed.
  Lemma structs_names : forall l, map fst (structs_of l) = flat_map (fun d => match d with DStruct x _ _ => [x] | _ => [] end) (map fst l).
  Proof. unfold structs_of; induction l as [|[d tbl] l IH]; cbn; auto. destruct d; cbn; auto. f_equal; auto. Qed.

  Lemma accepted : exists P, declare_all ds = Accepted P.
  Proof.
    unfold declare_all. destruct (pass1_good ds 1 std g_params (good_keys_differ _ _ G) fresh_std) as (l & next & root1 & P1). rewrite P1.
    destruct (pass1_ok _ _ _ _ _ _ P1) as (A1 & A2 & A3 & A4). specialize (A4 std_nodup). pose proof (knows_root l root1 A1 A2 A3 A4) as K1.
    assert (NB : Forall (fun d => numbered (decl_params (fst d)) (snd d)) l) by (eapply Forall_impl; [|exact A2]; cbn; tauto).
    destruct (fold_good l [] (State [] root1 next [] [] [])) as (B1 & B2 & B3); auto.
    { intros y Y. cbn [st_root] in Y. cbn [member_names flat_map app]. unfold base. assert (In y (map fst root1)) by (destruct (in_dec string_dec y (map fst root1)) as [|Z]; auto; apply assoc_none in Z; congruence).
      rewrite A3, map_app in H. apply in_app_or in H as [H|H]; [|rewrite !in_app_iff; left; exact H]. rewrite !in_app_iff. right; left.
      rewrite map_rev in H. rewrite <- in_rev in H. rewrite map_map in H. rewrite <- A1, map_map. exact H. }
    set (s := fold_left pass2 l (State [] root1 next [] [] [])) in *. rewrite B1.
    assert (IV : Inv root1 l s).
    { change l with ([] ++ l). apply fold_ok; auto. constructor; cbn; auto; try solve [constructor | intros; contradiction | intros [|] ? H; discriminate].
      - split; [|intros [|] ? H; discriminate]. intros x r f H I. rewrite A3, assoc_app in H. 
        destruct (assoc x (rev (map type_entry l))) eqn:R.
        + injection H as ->. apply assoc_in in R. rewrite <- in_rev in R. apply in_map_iff in R as (d & D & _). unfold type_entry in D. injection D as _ <-. contradiction.
        + apply assoc_in in H. cbn in H. decompose [or] H; try contradiction; match goal with K : (_, _) = _ |- _ => injection K as _ <-; cbn in I; intuition (subst; cbn; lia) end.
      - split; constructor. }
    assert (Ks : knows ar (st_root s)) by (eapply knows_same; [|exact K1]; exact B2).
    assert (Nl : forall d tbl, In (d, tbl) l -> In d ds /\ map fst tbl = decl_params d).
    { intros d tbl I. split; [rewrite <- A1; apply in_map_iff; exists (d, tbl); auto|]. rewrite Forall_forall in NB. apply NB in I. apply I. }
    rewrite (flat_map_nil_intro fst (map (inst_struct (st_root s)) (st_structs s))).
    2:{ intros a I. apply in_map_iff in I as ([x [tbl fs]] & <- & I). rewrite (i_structs _ _ _ IV) in I. apply structs_in in I as (tps & I). cbn.
        destruct (Nl _ _ I) as [I' M]. apply inst_all_good; auto. rewrite M. apply (good_decls _ _ G _ I'). }
    rewrite (flat_map_nil_intro fst (map (inst_fun (st_root s)) (st_funs s))).
    2:{ intros a I. apply in_map_iff in I as (sig & <- & I). apply In_nth_error in I as (k & I). pose proof (i_cons _ _ _ IV _ _ I) as C.
        assert (W : Forall (fun p => well_written ar (map fst (s_types sig)) (snd p)) (s_params sig) /\ match s_ret sig with Some e => well_written ar (map fst (s_types sig)) e | None => True end).
        { destruct (s_body sig) as [b|x tag].
          - destruct C as (tps & tbl & [M _] & J). destruct (Nl _ _ J) as [J' _]. rewrite M. apply (good_decls _ _ G _ J').
          - destruct C as (tbl & ms & st & m & J & _ & _ & Nm & ->). apply enums_in in J as (tps & J). destruct (Nl _ _ J) as [J' M]. cbn [cons_sig s_types s_params s_ret]. rewrite M. destruct m as [y ps].
            destruct (good_decls _ _ G _ J') as [_ D]. split; [apply (D y ps); eapply nth_error_In; eauto|]. eapply ww_name with (n := List.length tps).
            unfold ar, arities. apply in_or_app; right. apply in_flat_map. eexists; split; [exact J'|cbn; auto]. }
        destruct W as [W1 W2]. unfold inst_fun. cbn [inst_all]. rewrite (inst_all_good _ _ _ Ks W1). destruct (s_ret sig) as [e|]; cbn; auto.
        destruct (inst_good ar (st_root s) (s_types sig) e Ks W2) as (t & ->). reflexivity. }
    cbn [app].
    destruct (add_constructors_good (map snd (map (inst_struct (st_root s)) (st_structs s))) cs (st_root s) (map s_name (st_funs s)) (std_funs ++ map snd (map (inst_fun (st_root s)) (st_funs s)))) as (root' & all & ->).
    - rewrite !map_map. rewrite (map_ext _ fst) by (intros d; apply (proj1 (inst_struct_name _ _))). rewrite (i_structs _ _ _ IV), structs_names, A1. exact (good_cons _ _ G).
    - pose proof members_nodup as N. apply Permutation_NoDup with (l' := cs ++ member_names ds) in N; [|apply Permutation_app_comm]. eapply nodup_app_l; eauto.
    - intros y Y. eapply within_none; [exact B3|]. intros Z. apply in_app_or in Z as [Z|Z].
      + eapply nodup_disjoint; [exact members_nodup|exact Z|exact Y].
      + eapply not_in_base; [|exact Z]. apply in_or_app; auto.
    - eauto.
  Qed.
End Good.
