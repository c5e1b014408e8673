(** Match statements run the case of the value. *)
From Coq Require Import ZArith List Bool String Lia.
From Verif Require Import Ints X86 GenModel GenSpec GenMem GenProps GenFuel LowerModel LowerSpec LowerFin LowerRet LowerVars.
Import ListNotations.
Open Scope Z_scope.
Ltac Zify.zify_post_hook ::= Z.div_mod_to_equations.

Lemma off_res_sym x R R' : off_res x R R' -> off_res x R' R.
Proof.
  destruct R as [[[o r] h]| | | |], R' as [[[o' r'] h']| | | |]; cbn; try tauto; try (intros (-> & -> & H)); auto using off_sym.
Qed.
Lemma off_apart x R R' : off_res x R R' <-> apart [x] R R'.
Proof.
  destruct R as [[[o r] h]| | | |], R' as [[[o' r'] h']| | | |]; cbn; try tauto.
  unfold off. split; intros (-> & -> & H); repeat split; intros y Hy; apply H; intuition congruence.
Qed.

Section Match.
Variable heap : Z -> bool.
Variable lit : list Z -> Z.
Variable fun_addr : string -> Z.
Variable fun_at : Z -> option string.
Variable extern abstract : string -> list (option Z) -> memory -> option (option Z * memory).
Variable alloc : string.
Variable prog : list fundef.
Variable K : consts.
Notation EVAL := (eval heap lit fun_addr fun_at extern abstract alloc prog).
Notation EVAL_ARGS := (eval_args heap lit fun_addr fun_at extern abstract alloc prog).
Notation EXEC := (exec_stmt heap lit fun_addr fun_at extern abstract alloc prog).
Notation EXEC_LIST := (exec_list heap lit fun_addr fun_at extern abstract alloc prog).
Notation EXEC_IF := (exec_if heap lit fun_addr fun_at extern abstract alloc prog).
Notation finE r h e := (fin (fun n d => EVAL n d r h e)).
Notation finS r h s := (fin (fun n d => EXEC n d r h s)).
Notation finL r h l := (fin (fun n d => EXEC_LIST n d r h l)).
Notation finI r h l := (fin (fun n d => EXEC_IF n d r h l)).
Local Notation finL_app := (finL_app heap lit fun_addr fun_at extern abstract alloc prog).
Local Notation finL_one := (finL_one heap lit fun_addr fun_at extern abstract alloc prog).
Local Notation finL_nil := (finL_nil heap lit fun_addr fun_at extern abstract alloc prog).
Local Notation finL_cons := (finL_cons heap lit fun_addr fun_at extern abstract alloc prog).
Local Notation finI_cons := (finI_cons heap lit fun_addr fun_at extern abstract alloc prog).
Local Notation finI_nil := (finI_nil heap lit fun_addr fun_at extern abstract alloc prog).
Local Notation finS_if := (finS_if heap lit fun_addr fun_at extern abstract alloc prog).
Local Notation finS_block := (finS_block heap lit fun_addr fun_at extern abstract alloc prog).
Local Notation finS_das := (finS_das heap lit fun_addr fun_at extern abstract alloc prog).
Local Notation wants_val := (wants_val heap lit fun_addr fun_at extern abstract alloc prog).
Local Notation finE_dot := (finE_dot heap lit fun_addr fun_at extern abstract alloc prog).
Local Notation finE_cmp := (finE_cmp heap lit fun_addr fun_at extern abstract alloc prog).

Hypothesis AE : as_enum_defined K extern prog.

Lemma finE_as_enum r h tmp t w : r tmp = Some w -> finE r h (as_enum K tmp t) (Val (Some (word w), h)).
Proof.
  intros E. destruct AE as (X & p & tp & ti & te & fi & u & ret & F & Y & Z & U).
  split; [discriminate|]. exists 12%nat, 1%nat. unfold as_enum.
  Ltac step := first [rewrite eval_step | rewrite eval_args_step]; cbv beta iota zeta.
  step. step. step. rewrite E. cbn [bind]. step. cbn [bind]. rewrite apply_step, X, call_fun_step, F. cbn [f_extret].
  rewrite run_fun_step. cbn [f_params f_body bind_params hd tl]. step. step. step. rewrite Nat.eqb_refl. cbn [bind].
  step. step. cbn [bind]. step. step. cbn [bind]. step. cbn [bind].
  rewrite apply_step, Y, Z. cbv beta iota zeta. rewrite U. cbn [andb]. replace (ival (wint 0)) with 0 by reflexivity. rewrite Z.add_0_r. reflexivity.
Qed.

Lemma word_of_word_add a b : word (word a + word b) = word (a + b).
Proof. rewrite word_add_l, word_add_r. reflexivity. Qed.

Lemma finE_test r h tmp t w tag vs c : r tmp = Some w -> has_member heap h w tag vs ->
  finE r h (case_test K tmp t c) (Val (Some (wbool (wrap tag =? wrap c)), h)).
Proof.
  intros E (O & Lo & _). unfold case_test, int_lit.
  assert (W0 : word (word w + word 0) = word w) by (rewrite word_of_word_add, Z.add_0_r; reflexivity).
  assert (A : finE r h (EDot (c_int K) (as_enum K tmp t) (EOff (c_int K) 0)) (Val (Some (load h (word (word w + word 0))), h))).
  { eapply finE_dot; [apply finE_as_enum, E|apply finE_off|]. rewrite W0. exact O. }
  rewrite W0, Lo in A.
  assert (B := finE_cmp r h (c_bool K) Eq _ _ _ _ _ _ A (finE_int heap lit fun_addr fun_at extern abstract alloc prog r h (c_int K) c)).
  rewrite !ival_wint in B. exact B.
Qed.

Lemma case_env_other r vars vs y : ~ In y (map fst vars) -> case_env r vars vs y = r y.
Proof.
  revert vs. induction vars as [|[x t] vars IH]; intros [|v vs] N; cbn in *; auto.
  destruct (Nat.eqb_spec x y); [tauto|]. apply IH. tauto.
Qed.

(** The declarations of the variables of a case. *)
Lemma finL_case_vars tmp t w tag all h : has_member heap h w tag all -> forall vars vs i r l rest,
  (forall j v, nth_error vs j = Some v -> nth_error all (i + j) = Some v) -> List.length vars = List.length vs ->
  NoDup (map fst vars) -> ~ In tmp (map fst vars) -> r tmp = Some w ->
  case_vars K tmp t i vars = Some l ->
  exists r1, (forall y, r1 y = case_env r vars vs y) /\ forall R, finL r h (l ++ rest) R <-> finL r1 h rest R.
Proof.
  intros M. induction vars as [|[x u] vars IH]; intros [|v vs] i r l rest Nt Len D T E V; try discriminate Len.
  - cbn in V. inversion V; subst. exists r. split; reflexivity.
  - cbn in V. destruct (enum_field i) as [o|] eqn:Fo; [|discriminate].
    destruct (case_vars K tmp t (S i) vars) as [l1|] eqn:V1; [|discriminate]. inversion V; subst. clear V.
    cbn in D, T. inversion D as [|? ? D1 D2]; subst.
    assert (Oo : o = 8 * (Z.of_nat i + 1)). { unfold enum_field in Fo. destruct (Nat.ltb i 5); inversion Fo; reflexivity. }
    destruct M as (M1 & M2 & M3).
    assert (Ni : nth_error all i = Some v). { rewrite <- (Nat.add_0_r i). apply Nt. reflexivity. }
    destruct (M3 _ _ Ni) as [Ok Lo].
    assert (A : finE r h (EDot u (as_enum K tmp t) (EOff (c_int K) o)) (Val (Some v, h))).
    { assert (W0 : word (word w + word o) = word (w + 8 * (Z.of_nat i + 1))) by (rewrite word_of_word_add, Oo; reflexivity).
      rewrite <- Lo, <- W0. eapply finE_dot; [apply finE_as_enum, E|apply finE_off|]. rewrite W0. exact Ok. }
    destruct (IH vs (S i) (env_set r x v) l1 rest) as [r1 [Q F]]; auto.
    { intros j v' Hj. replace (S i + j)%nat with (i + S j)%nat by lia. apply Nt. exact Hj. }
    { unfold env_set. destruct (Nat.eqb_spec x tmp); [exfalso; apply T; left; assumption|exact E]. }
    exists r1. split.
    + intros y. rewrite Q. cbn [case_env]. destruct (Nat.eqb_spec x y) as [->|Ne].
      * rewrite case_env_other by exact D1. unfold env_set. rewrite Nat.eqb_refl. reflexivity.
      * clear - Ne. revert vs. induction vars as [|[z u] vars IH]; intros [|v' vs]; cbn; try (unfold env_set; destruct (Nat.eqb_spec x y); congruence).
        destruct (Nat.eqb z y); [reflexivity|apply IH].
    + intros R. cbn [app]. rewrite finL_cons. rewrite <- F. split.
      * intros [R1 [F1 F2]]. apply finS_das in F1. apply (wants_val _ _ _ _ _ _ _ A) in F1. subst. exact F2.
      * intros F1. exists (Val (ONormal, env_set r x v, h)). split; [|exact F1]. apply finS_das. apply (wants_val _ _ _ _ _ _ _ A). reflexivity.
Qed.

(** Runs of statements that do not use a variable. *)
Lemma finL_off x r r' h l R : off x r r' -> uses_any x l = false -> finL r h l R -> exists R', finL r' h l R' /\ off_res x R R'.
Proof.
  intros O U [N [n [d E]]].
  assert (Q := proj1 (proj2 (exec_off heap lit fun_addr fun_at extern abstract alloc prog x n d r r' h O)) l U).
  rewrite E in Q. exists (EXEC_LIST n d r' h l). split; [|exact Q]. split; [|eauto].
  intros Z. rewrite Z in Q. destruct R as [[[o r1] h1]| | | |]; cbn in Q; auto.
Qed.

Definition case_tag (c : Z * list (nat * ty) * list xstmt) : Z := fst (fst c).

Lemma member_case r h e w h1 tag vs vars body cases k st k' :
  finE r h e (Val (Some w, h1)) -> has_member heap h1 w tag vs ->
  In (tag, vars, body) cases -> NoDup (map case_tag cases) -> (forall c, In c cases -> is_int (case_tag c)) ->
  NoDup (map fst vars) -> List.length vars = List.length vs ->
  occurs k (XMatch e cases) = false -> lower K k (XMatch e cases) = Some (st, k') ->
  exists k1 k2 body', (k < k1)%nat /\ lower_body K k1 body = Some (body', k2) /\
    same_results [k] (fun R => finS r h st R) (fun R => finL (case_env r vars vs) h1 body' R).
Proof.
  intros Ev M I D Ti Dv Lv O L. unfold lower in L. cbn [lower_with] in L. fold (lower_list K []) in L. fold (lower_cases K []) in L.
  cbn [occurs] in O. fold (occurs_any k) (occurs_cases k) in O. apply orb_false_iff in O as [Oe Oc].
  destruct (lower_cases K [] (S k) cases) as [[cs' k1]|] eqn:C; [|discriminate].
  destruct (lower_match K [] k e cs') as [s|] eqn:Lm; [|discriminate]. inversion L; subst. clear L.
  unfold lower_match in Lm. destruct (case_branches K k (typ e) cs') as [bs|] eqn:B; [|discriminate]. rewrite app_nil_r in Lm.
  set (r0 := env_set r k w).
  assert (G : exists k2 k3 body' vl, (k < k2)%nat /\ lower_body K k2 body = Some (body', k3) /\ ~ In k (map fst vars) /\ occurs_any k body = false /\
     case_vars K k (typ e) 0 vars = Some vl /\ forall R, finI r0 h1 bs R <-> finL r0 h1 (vl ++ body') R).
  { clear Lm. assert (Lk : (k < S k)%nat) by lia. revert Lk cs' bs C B. generalize (S k).
    assert (E0 : r0 k = Some w) by (unfold r0, env_set; rewrite Nat.eqb_refl; reflexivity).
    induction cases as [|[[tg vs0] b0] cases IH]; intros k2 Lk cs' bs C B; [destruct I|].
    cbn [lower_cases] in C. destruct (lower_list K [] k2 b0) as [[b' k3]|] eqn:Eb; [|discriminate].
    destruct (lower_cases K [] k3 cases) as [[cs1 k4]|] eqn:Ec; [|discriminate]. inversion C; subst. clear C.
    cbn [case_branches] in B. destruct (case_vars K k (typ e) 0 vs0) as [vl|] eqn:V; [|discriminate].
    destruct (case_branches K k (typ e) cs1) as [bs1|] eqn:B1; [|discriminate]. inversion B; subst. clear B.
    cbn in Oc. apply orb_false_iff in Oc as [Oc1 Oc3]. apply orb_false_iff in Oc1 as [Oc1 Oc2].
    cbn in D. inversion D as [|? ? D1 D2]; subst. cbn [case_tag fst] in D1.
    assert (Test : forall R, finI r0 h1 ((Some (case_test K k (typ e) tg), (vl ++ b')%list) :: bs1) R <->
      if wrap tag =? wrap tg then finL r0 h1 (vl ++ b') R else finI r0 h1 bs1 R).
    { intros R. rewrite finI_cons. rewrite (wants_val _ _ _ _ _ _ _ (finE_test r0 h1 k (typ e) w tag vs tg E0 M)).
      destruct (wrap tag =? wrap tg); reflexivity. }
    destruct (body_fresh K k _ _ _ _ Lk Eb) as (Lk3 & _).
    destruct I as [I|I].
    - inversion I; subst. exists k2, k3, b', vl. split; [exact Lk|]. split; [exact Eb|]. split.
      { intros Hk. apply in_map_iff in Hk as [q [Q1 Q2]]. assert (X : existsb (fun v => Nat.eqb k (fst v)) vars = true) by (apply existsb_exists; exists q; rewrite Q1, Nat.eqb_refl; auto). congruence. }
      split; [exact Oc2|]. split; [exact V|]. intros R. rewrite Test, Z.eqb_refl. reflexivity.
    - destruct (IH I D2 ltac:(intros c Hc; apply Ti; right; exact Hc) Oc3 k3 ltac:(lia) cs1 bs1 Ec B1) as (k5 & k6 & body' & vl' & A1 & A2 & A3 & A4 & A5 & A6).
      exists k5, k6, body', vl'. do 5 (split; [assumption|]). intros R. rewrite Test.
      assert (Ne : wrap tag =? wrap tg = false).
      { apply Z.eqb_neq. intros Q. assert (T1 := Ti _ (or_introl eq_refl)). assert (T2 := Ti _ (or_intror I)). cbn in T1, T2.
        rewrite !wrap_id in Q by assumption. subst. apply D1. apply (in_map case_tag) in I. exact I. }
      rewrite Ne. apply A6. }
  destruct G as (k2 & k3 & body' & vl & Lk & Lb & Nk & Ob & V & G). exists k2, k3, body'. split; [exact Lk|]. split; [exact Lb|].
  assert (Ub : uses_any k body' = false). { apply (body_fresh K k _ _ _ _ Lk Lb). exact Ob. }
  assert (St : st = SBlock [SDas k (typ e) e; SIf bs] ).
  { destruct bs as [|q bs]; [|inversion Lm; reflexivity]. exfalso.
    assert (F := proj1 (G (Val (ONormal, r0, h1))) (proj2 (finI_nil _ _ _) eq_refl)).
    destruct cs' as [|[[a b] c] cs']; [destruct cases as [|[[a b] c] cases]; [destruct I|]; cbn in C; destruct (lower_list K [] (S k) c) as [[? ?]|]; [|discriminate]; destruct (lower_cases K [] n cases) as [[? ?]|]; discriminate|].
    cbn in B. destruct (case_vars K k (typ e) 0 b); [|discriminate]. destruct (case_branches K k (typ e) cs'); discriminate. }
  assert (Main : forall R, finS r h st R <-> finL r0 h1 (vl ++ body') R).
  { intros R. rewrite St, finS_block, finL_cons.
  assert (S1 : forall R1, finS r h (SDas k (typ e) e) R1 <-> R1 = Val (ONormal, r0, h1)).
  { intros R1. rewrite finS_das. rewrite (wants_val _ _ _ _ _ _ _ Ev). reflexivity. }
  assert (S2 : (exists R1, finS r h (SDas k (typ e) e) R1 /\ then_ (fun r h R => finL r h [SIf bs] R) R1 R) <-> finL r0 h1 (vl ++ body') R).
  { rewrite <- G, <- finS_if, <- finL_one. split.
    - intros [R1 [F1 F2]]. apply S1 in F1. subst. exact F2.
    - intros F. exists (Val (ONormal, r0, h1)). split; [apply S1; reflexivity|exact F]. }
  exact S2. }
  assert (E0 : r0 k = Some w) by (unfold r0, env_set; rewrite Nat.eqb_refl; reflexivity).
  assert (Off : forall r1, (forall y, r1 y = case_env r0 vars vs y) -> off k r1 (case_env r vars vs)).
  { intros r1 Q y Hy. rewrite Q. clear - Hy. revert vs. induction vars as [|[x t] vars IH]; intros [|v vs]; cbn; try (unfold r0, env_set; destruct (Nat.eqb_spec k y); congruence).
    destruct (Nat.eqb x y); [reflexivity|apply IH]. }
  destruct (finL_case_vars k (typ e) w tag vs h1 M vars vs 0%nat r0 vl body' (fun j v H => H) Lv Dv Nk E0 V) as [r1 [Q F]].
  apply Off in Q. split.
  - intros R F1. apply Main, F in F1.
    destruct (finL_off k _ _ _ _ _ Q Ub F1) as [R' [F2 F3]]. exists R'. split; [exact F2|]. apply off_apart. exact F3.
  - intros R' F1. destruct (finL_off k _ _ _ _ _ (off_sym _ _ _ Q) Ub F1) as [R [F2 F3]]. exists R. split.
    + apply Main, F, F2.
    + apply off_apart, off_res_sym, F3.
Qed.
(** Values built by the constructor of a member. *)
Lemma take_args_all (vs : list Z) k : List.length vs = k -> take_args k (map Some vs) = map Some vs.
Proof. intros <-. induction vs; cbn; [reflexivity|]. f_equal. assumption. Qed.

Lemma set_fields_heap vs : forall p h h', set_fields heap vs p h = Val h' ->
  forall i, (i < List.length vs)%nat -> ok8 heap (word (p + 8 * Z.of_nat i)) = true.
Proof.
  induction vs as [|[v|] vs IH]; intros p h h' E i Hi; cbn [set_fields List.length] in *; [lia| |discriminate].
  destruct (ok8 heap (word p)) eqn:O; [|discriminate]. destruct i as [|i].
  - replace (p + 8 * Z.of_nat 0) with p by lia. exact O.
  - replace (p + 8 * Z.of_nat (S i)) with (p + 8 + 8 * Z.of_nat i) by lia. eapply IH; [exact E|lia].
Qed.

Lemma constructed r h t fi f args fd tag id descr w h2 :
  fi_external fi = false -> find_fun prog f = Some fd -> f_body fd = BCons (Some tag) id descr ->
  finE r h (ECall t fi f args) (Val (Some w, h2)) -> forall vs h1,
  fin (fun n d => EVAL_ARGS n d r h args) (Val (map Some vs, h1)) ->
  List.length vs = List.length (f_params fd) -> (forall v, In v vs -> is_addr v) ->
  0 <= w -> w + 8 * (Z.of_nat (List.length vs) + 1) <= W ->
  has_member heap h2 w tag vs.
Proof.
  intros X F B [_ [n [d E]]] vs h1 [_ [n' [d' Ea]]] Len Ad W0 W1.
  assert (MA : forall n d R, EVAL_ARGS n d r h args = R -> R <> NoFuel -> R = Val (map Some vs, h1)).
  { intros m c R Er Nr.
    destruct (proj1 (proj2 (proj2 (more heap lit fun_addr fun_at extern abstract alloc prog m c (Nat.max m n') (Nat.max c d') ltac:(lia) ltac:(lia)))) r h args) as [Y|Y]; [congruence|].
    destruct (proj1 (proj2 (proj2 (more heap lit fun_addr fun_at extern abstract alloc prog n' d' (Nat.max m n') (Nat.max c d') ltac:(lia) ltac:(lia)))) r h args) as [Z|Z]; [congruence|]. congruence. }
  destruct n as [|n]; [discriminate|]. rewrite eval_step in E. cbv beta iota zeta in E.
  destruct (EVAL_ARGS n d r h args) as [[vs0 h0]| | | |] eqn:E0; cbn [bind] in E; try discriminate.
  assert (Q := MA _ _ _ E0 ltac:(discriminate)). inversion Q; subst vs0 h0. clear Q MA.
  destruct n as [|n]; [discriminate|]. rewrite apply_step, X in E.
  destruct n as [|n]; [discriminate|]. rewrite call_fun_step, F in E. destruct (f_extret fd); [discriminate|].
  destruct n as [|n]; [discriminate|]. destruct d as [|d]; [discriminate|]. rewrite run_fun_step in E. cbv zeta in E. rewrite B in E.
  rewrite (take_args_all vs) in E by exact Len.
  match type of E with need ?a _ = _ => destruct a as [[[p|] h3]| | | |] eqn:Ep end; cbn [need bind] in E; try discriminate.
  match type of E with bind ?a _ = _ => destruct a as [h4| | | |] eqn:Es end; cbn [bind] in E; try discriminate.
  inversion E; subst. clear E. cbn [object_fields] in Es.
  assert (Hl : List.length (Some (wint tag) :: map Some vs) = S (List.length vs)) by (cbn; rewrite map_length; reflexivity).
  assert (S1 : forall i v, nth_error (Some (wint tag) :: map Some vs) i = Some (Some v) -> load h2 (w + 8 * Z.of_nat i) = v).
  { eapply (set_fields_spec heap _ _ _ _ Es W0); [rewrite Hl; lia|].
    intros v [I|I]; [inversion I; subst; apply wint_range|]. apply in_map_iff in I as [v' [Q I]]. inversion Q; subst. apply Ad, I. }
  assert (S2 := set_fields_heap _ _ _ _ Es). rewrite Hl in S2.
  assert (Wd : forall i, (i <= List.length vs)%nat -> word (w + 8 * Z.of_nat i) = w + 8 * Z.of_nat i).
  { intros i Hi. apply word_id. unfold is_word. lia. }
  split; [|split].
  - specialize (S2 0%nat ltac:(lia)). rewrite Z.add_0_r in S2. exact S2.
  - rewrite <- (Z.add_0_r w). change 0 with (8 * Z.of_nat 0). rewrite Wd by lia. apply S1. reflexivity.
  - intros i v Hi. assert (Li : (i < List.length vs)%nat) by (apply nth_error_Some; congruence).
    replace (8 * (Z.of_nat i + 1)) with (8 * Z.of_nat (S i)) by lia. split; [apply S2; lia|].
    rewrite Wd by lia. apply S1. cbn. rewrite nth_error_map, Hi. reflexivity.
Qed.
End Match.
