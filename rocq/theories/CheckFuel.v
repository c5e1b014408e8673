(** The type checker ends (for C52): with enough fuel none is missing. *)
From Coq Require Import String List Bool PeanoNat ZArith Lia.
From Verif Require Import TypeModel CheckModel.
Import ListNotations.
Local Open Scope nat_scope.
Local Open Scope list_scope.

(** The right side of a dot counts twice: parts of it are moved to the left. *)
Fixpoint we (e : expr) : nat :=
  match e with
  | ELit _ | EId _ | EType _ => 1
  | EArith _ l r | ELogic _ l r | ECmp _ l r | EIndex l r => 1 + we l + we r
  | ENot e | EBNot e | ENeg e | EFnExpr _ _ _ e => 1 + we e
  | ECall f _ args => 1 + we f + list_sum (map we args)
  | EDot l r => 1 + we l + 2 * we r
  | EArrLit es => 1 + list_sum (map we es)
  | ETern c a b => 1 + we c + we a + we b
  | EFn _ _ _ body => 1 + list_sum (map ws body)
  end
with ws (s : stmt) : nat :=
  match s with
  | SExpr e => 1 + we e
  | SDas l r | SAs l r => 1 + we l + we r
  | SWhile c body => 1 + we c + list_sum (map ws body)
  | SForIn _ e body => 1 + we e + list_sum (map ws body)
  | SForRange _ a b body => 1 + we a + we b + list_sum (map ws body)
  | SIf c body rest => 1 + we c + list_sum (map ws body) + match rest with Some r => ws r | None => 0 end
  | SElse body => 1 + list_sum (map ws body)
  | SReturn e => 1 + match e with Some e => we e | None => 0 end
  | SMatch e cases => 1 + we e + list_sum (map (fun c => list_sum (map ws (snd c))) cases)
  end.

Lemma in_sum : forall {A} (f : A -> nat) l x, In x l -> f x <= list_sum (map f l).
Proof. intros A f; induction l as [|y l IH]; cbn; intros x []; subst; [lia|]. specialize (IH _ H). unfold list_sum in IH. lia. Qed.

Definition clean (l : list issue) : Prop := ~ In (Err OutOfFuel) l.
Lemma clean_app : forall l m, clean l -> clean m -> clean (l ++ m).
Proof. intros l m A B I; apply in_app_or in I; destruct I; auto. Qed.
Lemma clean_nil : clean [].
Proof. intros []. Qed.
Lemma clean_cons : forall i l, i <> Err OutOfFuel -> clean l -> clean (i :: l).
Proof. intros i l A B [E|I]; auto. Qed.
Lemma clean_drop : forall l, clean l -> clean (drop_errors l).
Proof.
  intros l H; unfold drop_errors. destruct (errors l); auto. apply clean_cons; [discriminate|]. intros I; apply filter_In in I as [I _]; auto.
Qed.
Lemma clean_errors : forall l, clean l -> clean (errors l).
Proof. intros l H I. apply filter_In in I as [I _]; auto. Qed.
Lemma clean_note : forall b o, clean (note b o).
Proof. intros [] o; cbn; [apply clean_cons; [discriminate|apply clean_nil]|apply clean_nil]. Qed.
Lemma clean_fail : forall l e, e <> OutOfFuel -> clean l -> clean (fst (fail l e)).
Proof. intros l e N H; unfold fail; cbn. apply clean_app; auto. apply clean_cons; [congruence|apply clean_nil]. Qed.

#[local] Hint Resolve clean_app clean_nil clean_cons clean_drop clean_note clean_fail : clean.
Ltac cl := cbn [fst snd] in *; eauto 10 with clean; try (repeat first [apply clean_app | apply clean_cons; [discriminate|] | apply clean_fail; [discriminate|] | apply clean_drop | apply clean_note | apply clean_nil | assumption]; fail).

Section Helpers.
Variables (G : genv) (F : list frame).

Lemma ident_clean : forall x b, clean (fst (check_ident G F x b)).
Proof. intros x b; unfold check_ident. destruct (resolve G F x) as [| |[|[f t] [|? ?]]|]; try destruct b; cl. Qed.
Lemma args_ext : forall c1 c2 es, (forall e, In e es -> c1 e = c2 e) -> check_args G F c1 es = check_args G F c2 es.
Proof.
  intros c1 c2; induction es as [|e es IH]; intros H; cbn [check_args]; auto.
  rewrite IH by (intros; apply H; right; auto). rewrite (H e) by (left; auto). reflexivity.
Qed.
Lemma args_clean : forall c es, (forall e, In e es -> clean (fst (c e))) -> clean (fst (check_args G F c es)).
Proof.
  intros c; induction es as [|e es IH]; intros H; cbn [check_args]; [cl|].
  assert (I : clean (fst (check_args G F c es))) by (apply IH; intros; apply H; right; auto). specialize (H e (or_introl eq_refl)).
  match goal with |- clean (fst (match ?X with _ => _ end)) => assert (Z : clean (fst X)); [|destruct X as [ie [a|]]] end.
  - destruct e; try (destruct (c _) as [? [[? ?]|]]; exact H). pose proof (ident_clean x true) as Y. destruct (check_ident G F x true) as [? [[[? ?] ?]|]]; exact Y.
  - destruct (check_args G F c es) as [i [l|]]; cl.
  - cl.
Qed.
Lemma array_ext : forall c1 c2 es first, (forall e, In e es -> c1 e = c2 e) -> array_lit c1 first es = array_lit c2 first es.
Proof.
  intros c1 c2; induction es as [|e es IH]; intros first H; cbn [array_lit]; auto.
  rewrite (H e) by (left; auto). destruct (c2 e) as [ie [[c t]|]]; auto. rewrite IH by (intros; apply H; right; auto). reflexivity.
Qed.
Lemma array_clean : forall c es first, (forall e, In e es -> clean (fst (c e))) -> clean (fst (array_lit c first es)).
Proof.
  intros c; induction es as [|e es IH]; intros first H; cbn [array_lit]; [cl|].
  pose proof (H e (or_introl eq_refl)) as He. destruct (c e) as [ie [[c0 t]|]]; [|exact He]. destruct (negb _); [cl|].
  match goal with |- context [array_lit c ?f es] => assert (I : clean (fst (array_lit c f es))) by (apply IH; intros; apply H; right; auto) end.
  destruct (array_lit c _ es) as [i [[cs f]|]]; cl.
Qed.
Lemma resolve_call_clean : forall name cf tf chain ts errs args, clean errs -> clean (fst (resolve_call G name cf tf chain ts errs args)).
Proof.
  intros name cf tf chain ts errs args H; unfold resolve_call.
  destruct (_ || _); [destruct (match chain with [] => _ | _ => _ end); cl|]. destruct (String.eqb name "unsafe").
  { destruct args as [|? [|? [|[? ?] [|? ?]]]]; cl. }
  destruct chain.
  - destruct (match_by_type _ _ _) as [[?|?] ?]; cl.
  - destruct (match_by_symbol _ _ _) as [[[? ?]|[|? [|? ?]]] ?]; cl.
Qed.
Lemma call_ext : forall c1 c2 f ts first args, c1 f = c2 f -> (forall e, In e args -> c1 e = c2 e) ->
  call G F c1 f ts first args = call G F c2 f ts first args.
Proof. intros c1 c2 f ts first args H1 H2; unfold call. rewrite H1, (args_ext c1 c2) by auto. reflexivity. Qed.
Lemma call_clean : forall c f ts first args, clean (fst (c f)) -> (forall e, In e args -> clean (fst (c e))) ->
  clean (fst (call G F c f ts first args)).
Proof.
  intros c f ts first args H1 H2; unfold call. destruct (max_args <? _); [cl|].
  match goal with |- clean (fst (match ?X with _ => _ end)) => assert (Z : clean (fst X)); [|destruct X as [ie [[[a b] d]|]]] end.
  - destruct f; try (destruct (c _) as [? [[? ?]|]]; exact H1); try (cl; fail). pose proof (ident_clean x true) as I.
    destruct (check_ident G F x true) as [i [[[cf tf] ch]|]]; cbn [fst snd] in I |- *; auto. destruct ch as [|? [|? ?]]; auto. apply clean_errors; auto.
  - pose proof (args_clean c args H2) as I. destruct (check_args G F c args) as [i [l|]]; cl. apply resolve_call_clean; cl.
  - cl.
Qed.
Lemma binary_clean : forall v t mk rl rr, clean (fst rl) -> clean (fst rr) -> clean (fst (binary v t mk rl rr)).
Proof.
  intros v t mk [il [[cl0 tl]|]] [ir [[cr tr]|]] A B; unfold binary; cbn [fst snd]; try (cl; fail).
  destruct (negb (v tl)); [cl|]. destruct (negb (v tr)); [cl|]. destruct (matches tl tr); cl.
Qed.
Lemma unary_clean : forall v t mk r, clean (fst r) -> clean (fst (unary v t mk r)).
Proof. intros v t mk [i [[c u]|]] A; unfold unary; cbn [fst snd]; [destruct (v u)|]; cl. Qed.
Lemma index_clean : forall rl rr, clean (fst rl) -> clean (fst rr) -> clean (fst (index rl rr)).
Proof. intros [il [[cl0 tl]|]] [ir [[cr tr]|]] A B; unfold index; cbn [fst snd]; try (cl; fail). destruct (negb _); [cl|]. destruct tl; cl. Qed.
Lemma comparison_clean : forall o rl rr, clean (fst rl) -> clean (fst rr) -> clean (fst (comparison o rl rr)).
Proof. intros o [il [[cl0 tl]|]] [ir [[cr tr]|]] A B; unfold comparison; cbn [fst snd]; try (cl; fail). destruct (negb _); cl. Qed.
Lemma select_clean : forall errs cl0 tl x, clean errs -> clean (fst (select G errs cl0 tl x)).
Proof.
  intros errs c tl x A; unfold select. destruct tl; try (cl; fail).
  - destruct (field_type _ _ _ _); cl.
  - destruct tl; try (cl; fail). destruct (is_call c); [|cl]. destruct (field_type _ _ _ _); cl.
  - destruct (String.eqb _ _); cl.
  - destruct (String.eqb _ _); cl.
  - destruct (String.eqb _ _); cl.
Qed.
Lemma ternary_clean : forall rc ra rb, clean (fst rc) -> clean (fst (ra tt)) -> clean (fst (rb tt)) -> clean (fst (ternary rc ra rb)).
Proof.
  intros [ic [[cc tc]|]] ra rb A B C; unfold ternary; [|cl]. destruct (negb _); [cl|]. destruct (ra tt) as [ia [[ca ta]|]]; [|cl].
  destruct (rb tt) as [ib [[cb tb]|]]; [|cl]. destruct (negb _); cl.
Qed.
End Helpers.

Lemma block_ext : forall (c1 c2 : list frame -> stmt -> list issue * list frame * cstmt) ss F, (forall F s, In s ss -> c1 F s = c2 F s) -> check_block c1 F ss = check_block c2 F ss.
Proof.
  intros c1 c2; induction ss as [|s ss IH]; intros F H; cbn [check_block]; auto. rewrite H by (left; auto). destruct (c2 F s) as [[i F'] k].
  rewrite IH by (intros; apply H; right; auto). reflexivity.
Qed.
Lemma block_clean : forall c ss F, (forall F s, In s ss -> clean (fst (fst (c F s)))) -> clean (fst (check_block c F ss)).
Proof.
  intros c; induction ss as [|s ss IH]; intros F H; cbn [check_block]; [cl|]. pose proof (H F s (or_introl eq_refl)) as A. destruct (c F s) as [[i F'] k].
  assert (I : clean (fst (check_block c F' ss))) by (apply IH; intros; apply H; right; auto). destruct (check_block c F' ss); cl.
Qed.
Lemma vars_clean : forall xs ts f, clean (fst (case_vars f xs ts)).
Proof.
  induction xs as [|x xs IH]; intros [|t ts] f; cbn [case_vars]; try (cl; fail). destruct (assoc x f); [|apply IH].
  specialize (IH ts f). destruct (case_vars f xs ts); cl.
Qed.
Lemma cases_ext : forall G F b1 b2 b ms cases seen, (forall F c, In c cases -> b1 F (snd c) = b2 F (snd c)) ->
  check_cases G F b1 b ms seen cases = check_cases G F b2 b ms seen cases.
Proof.
  intros G F b1 b2 b ms; induction cases as [|[[x xs] body] cases IH]; intros seen H; cbn [check_cases]; auto.
  match goal with |- match ?X with _ => _ end = _ => destruct X as [[[f ps] notes]|] end.
  - assert (E : (if negb (Datatypes.length ps =? Datatypes.length xs) then ([Err InvalidNumberArgs], []) else let '(iv, fr) := case_vars [] xs (map (fun p => subst p b) ps) in let '(ib, kb) := b1 (fr :: F) body in (iv ++ ib, kb))
      = (if negb (Datatypes.length ps =? Datatypes.length xs) then ([Err InvalidNumberArgs], []) else let '(iv, fr) := case_vars [] xs (map (fun p => subst p b) ps) in let '(ib, kb) := b2 (fr :: F) body in (iv ++ ib, kb))).
    { destruct (negb _); auto. destruct (case_vars _ _ _). rewrite (H _ (x, xs, body)) by (left; auto). auto. }
    rewrite E. rewrite !IH by (intros; apply H; right; auto). reflexivity.
  - rewrite IH by (intros; apply H; right; auto). reflexivity.
Qed.
Lemma cases_clean : forall G F bl b ms cases seen, (forall F c, In c cases -> clean (fst (bl F (snd c)))) ->
  clean (fst (check_cases G F bl b ms seen cases)).
Proof.
  intros G F bl b ms; induction cases as [|[[x xs] body] cases IH]; intros seen H; cbn [check_cases]; [cl|].
  assert (I : forall seen, clean (fst (check_cases G F bl b ms seen cases))) by (intros; apply IH; intros; apply H; right; auto).
  match goal with |- clean (fst (match ?X with _ => _ end)) => destruct X as [[[f ps] notes]|] eqn:Q end.
  2:{ specialize (I seen); destruct (check_cases _ _ _ _ _ _ _); cl. }
  assert (N : clean notes).
  { destruct (resolve G F x) as [[]| |[|[? []] ?]|]; try discriminate; destruct (is_cons G _); try discriminate; injection Q as <- <- <-; cl. }
  match goal with |- clean (fst (match ?X with _ => _ end)) => assert (Z : clean (fst X)); [|destruct X as [ibody kbody]] end.
  { destruct (negb _); [cl|]. pose proof (vars_clean xs (map (fun p => subst p b) ps) []) as V. destruct (case_vars _ _ _) as [iv fr].
    specialize (H (fr :: F) (x, xs, body) (or_introl eq_refl)). cbn [snd] in H. destruct (bl (fr :: F) body); cl. }
  destruct (member ms f); [destruct (existsb _ seen)|].
  - specialize (I seen); destruct (check_cases _ _ _ _ _ _ _); cl.
  - specialize (I (f :: seen)); destruct (check_cases _ _ _ _ _ _ _); cl.
  - specialize (I seen); destruct (check_cases _ _ _ _ _ _ _); cl.
Qed.

Lemma assignment_clean : forall errs a b c d, clean errs -> clean (fst (assignment errs a b c d)).
Proof.
  intros errs a b c d H; unfold assignment. destruct a; try (destruct named); try (destruct b); try destruct (matches _ d); cl.
Qed.

Lemma we_pos : forall e, 1 <= we e.
Proof. destruct e; cbn; lia. Qed.
Lemma ws_pos : forall s, 1 <= ws s.
Proof. destruct s; cbn; lia. Qed.

Definition same_upto (G : genv) (n a b : nat) : Prop :=
  (forall F e, we e <= n -> check_expr a G F e = check_expr b G F e) /\
  (forall F ret s, ws s <= n -> check_stmt a G F ret s = check_stmt b G F ret s).
Definition clean_upto (G : genv) (n a : nat) : Prop :=
  (forall F e, we e <= n -> clean (fst (check_expr a G F e))) /\
  (forall F ret s, ws s <= n -> clean (fst (fst (check_stmt a G F ret s)))).

Ltac small := unfold list_sum in *; cbn [we ws map fold_right snd] in *; lia.
Ltac member_small := let x := fresh in let I := fresh in intros; match goal with I : In ?x ?l |- _ =>
  first [pose proof (in_sum we l x I) | pose proof (in_sum ws l x I)] end; small.

Lemma ext_step : forall G n a b, same_upto G n a b -> same_upto G (S n) (S a) (S b).
Proof.
  intros G n a b [HE HS].
  assert (HB : forall F ret ss, list_sum (map ws ss) <= n ->
    check_block (fun F s => check_stmt a G F ret s) F ss = check_block (fun F s => check_stmt b G F ret s) F ss).
  { intros F ret ss L. apply block_ext. intros F' s I. apply HS. pose proof (in_sum ws _ _ I). lia. }
  split.
  - intros F e L. destruct e; simpl check_expr; cbn [we] in L; try reflexivity;
      try (rewrite ?HE by lia; reflexivity).
    + apply call_ext; [apply HE; lia|]. intros e' I; apply HE. pose proof (in_sum we _ _ I). lia.
    + rewrite (HE F e1) by lia. destruct (check_expr b G F e1) as [il [[cl0 tl]|]]; auto. destruct e2; auto.
      * cbn [we] in L. rewrite (HE F (ECall (EDot e1 e2) ts args)) by (cbn [we]; lia).
        rewrite (call_ext G F (check_expr a G F) (check_expr b G F)); auto; [apply HE; lia|]. intros e' I; apply HE. pose proof (in_sum we _ _ I). lia.
      * cbn [we] in L. rewrite (HE F (EIndex (EDot e1 e2_1) e2_2)) by (cbn [we]; lia). auto.
    + destruct es as [|e es]; auto. rewrite (array_ext (check_expr a G F) (check_expr b G F)); auto. intros e' I; apply HE. pose proof (in_sum we _ _ I). lia.
    + destruct (declare _ _); auto. destruct (_ && _); auto. rewrite HB by lia. auto.
    + destruct (declare _ _); auto. rewrite HE by lia. auto.
  - intros F ret s L. destruct s; simpl check_stmt; cbn [ws] in L.
    + rewrite HE by lia; auto.
    + rewrite HE by lia; auto.
    + rewrite !HE by lia; auto.
    + rewrite HE by lia. rewrite HB by lia. auto.
    + rewrite HE by lia. destruct (check_expr b G F e) as [i [[c t]|]]; auto. destruct t; auto. rewrite HB by lia; auto.
    + rewrite !HE by lia. destruct (binary _ _ _ _ _) as [i [[c t]|]]; auto. destruct c; auto. rewrite HB by lia; auto.
    + rewrite HE by lia. rewrite HB by lia. destruct rest; auto. rewrite HS by lia. auto.
    + rewrite HB by lia; auto.
    + destruct e; auto. rewrite HE by lia; auto.
    + rewrite HE by lia. destruct (check_expr b G F e) as [i [[c t]|]]; auto. destruct t; auto. destruct (assoc _ _) as [[ps ms]|]; auto.
      erewrite cases_ext; [reflexivity|]. intros F' cs I. apply HB. pose proof (in_sum (fun c => list_sum (map ws (snd c))) _ _ I). cbn in *. lia.
Qed.

Lemma clean_step : forall G n a, clean_upto G n a -> clean_upto G (S n) (S a).
Proof.
  intros G n a [HE HS].
  assert (HB : forall F ret ss, list_sum (map ws ss) <= n -> clean (fst (check_block (fun F s => check_stmt a G F ret s) F ss))).
  { intros F ret ss L. apply block_clean. intros F' s I. apply HS. pose proof (in_sum ws _ _ I). lia. }
  split.
  - intros F e L. destruct e; simpl check_expr; cbn [we] in L; try (cl; fail).
    + pose proof (ident_clean G F x false) as H. destruct (check_ident G F x false) as [i [[[c t] ch]|]]; exact H.
    + apply binary_clean; apply HE; lia.
    + apply binary_clean; apply HE; lia.
    + apply comparison_clean; apply HE; lia.
    + apply unary_clean; apply HE; lia.
    + apply unary_clean; apply HE; lia.
    + apply unary_clean; apply HE; lia.
    + apply call_clean; [apply HE; lia|]. intros e' I; apply HE. pose proof (in_sum we _ _ I). lia.
    + pose proof (HE F e1 ltac:(lia)) as H. destruct (check_expr a G F e1) as [il [[cl0 tl]|]]; [|exact H]. destruct e2; try (cl; fail).
      * apply select_clean; cl.
      * cbn [we] in L. assert (H1 := HE F (ECall (EDot e1 e2) ts args) ltac:(cbn [we]; lia)).
        assert (H2 : clean (fst (call G F (check_expr a G F) e2 ts [(cl0, Arg tl [])] args))).
        { apply call_clean; [apply HE; lia|]. intros e' I; apply HE. pose proof (in_sum we _ _ I). lia. }
        destruct (has_field _ _ _); [destruct (check_expr a G F (ECall _ _ _))|destruct (call _ _ _ _ _ _ _)]; cl.
      * cbn [we] in L. assert (H1 := HE F (EIndex (EDot e1 e2_1) e2_2) ltac:(cbn [we]; lia)). destruct (check_expr a G F (EIndex _ _)); cl.
    + apply index_clean; apply HE; lia.
    + destruct es as [|e es]; [cl|]. assert (H : clean (fst (array_lit (check_expr a G F) None (e :: es)))).
      { apply array_clean. intros e' I; apply HE. pose proof (in_sum we _ _ I). lia. }
      destruct (array_lit _ _ _) as [i [[cs [t|]]|]]; exact H.
    + apply ternary_clean; apply HE; lia.
    + destruct (declare _ _); [|cl]. destruct (_ && _); [cl|]. specialize (HB l ret body ltac:(lia)). destruct (check_block _ _ _); exact HB.
    + destruct (declare _ _); [|cl]. specialize (HE l e ltac:(lia)). destruct (check_expr a G l e) as [i [[c t]|]]; [|exact HE]. destruct (matches _ _); cl.
  - intros F ret s L. destruct s; simpl check_stmt; cbn [ws] in L.
    + specialize (HE F e ltac:(lia)). destruct (check_expr a G F e) as [i [[c t]|]]; exact HE.
    + specialize (HE F r ltac:(lia)). destruct (check_expr a G F r) as [i [[c t]|]]; [|exact HE]. destruct l; try (cl; fail). destruct (define _ _ _); cl.
    + pose proof (HE F r ltac:(lia)) as A. pose proof (HE F l ltac:(lia)) as B. destruct (check_expr a G F r) as [ir [[cr tr]|]]; destruct (check_expr a G F l) as [il [[cl0 tl]|]]; cbn [fst snd] in *; try (cl; fail).
      pose proof (assignment_clean (ir ++ il) cl0 tl cr tr (clean_app _ _ A B)) as Z. destruct (assignment _ _ _ _ _); exact Z.
    + specialize (HE F c ltac:(lia)). destruct (check_expr a G F c) as [i [[cc tc]|]]; [|exact HE]. destruct (negb _); [cl|].
      specialize (HB ([] :: F) ret body ltac:(lia)). destruct (check_block _ _ _); cl.
    + specialize (HE F e ltac:(lia)). destruct (check_expr a G F e) as [i [[c t]|]]; [|exact HE]. destruct t; try (cl; fail).
      specialize (HB ([(x, LVar t)] :: F) ret body ltac:(lia)). destruct (check_block _ _ _); cl.
    + assert (Z : clean (fst (binary is_int TInt (CArith OAdd) (check_expr a G F a0) (check_expr a G F b)))) by (apply binary_clean; apply HE; lia).
      destruct (binary _ _ _ _ _) as [i [[c t]|]]; [|exact Z]. destruct c; try exact Z.
      specialize (HB ([(x, LVar t)] :: F) ret body ltac:(lia)). destruct (check_block _ _ _); cl.
    + specialize (HE F c ltac:(lia)). destruct (check_expr a G F c) as [i [[cc tc]|]]; [|exact HE]. destruct (negb _); [cl|].
      specialize (HB ([] :: F) ret body ltac:(lia)). destruct (check_block _ _ _). destruct rest as [r|]; [|cl].
      specialize (HS F ret r ltac:(lia)). destruct (check_stmt a G F ret r) as [[ir Fr] kr]; cl.
    + specialize (HB ([] :: F) ret body ltac:(lia)). destruct (check_block _ _ _); cl.
    + destruct e as [e|].
      * specialize (HE F e ltac:(lia)). destruct (check_expr a G F e) as [i [[c t]|]]; [|exact HE]. destruct (matches _ _); cl.
      * destruct (matches _ _); cl.
    + specialize (HE F e ltac:(lia)). destruct (check_expr a G F e) as [i [[c t]|]]; [|exact HE]. destruct t; try (cl; fail). destruct (assoc _ _) as [[ps ms]|]; [|cl].
      match goal with |- context [check_cases G F ?B ?b ms [] cases] => assert (Z : clean (fst (check_cases G F B b ms [] cases))) end.
      { apply cases_clean. intros F' cs I. apply HB. pose proof (in_sum (fun c => list_sum (map ws (snd c))) _ _ I). cbn in *. lia. }
      destruct (check_cases _ _ _ _ _ _ _). destruct (errors _); [|cl]. destruct (_ =? _); cl.
Qed.

Lemma enough_same : forall G n k, same_upto G n (n + k) n.
Proof.
  intros G n k; induction n as [|n IH]; [split|].
  - intros F e L; pose proof (we_pos e); lia.
  - intros F ret s L; pose proof (ws_pos s); lia.
  - apply ext_step; auto.
Qed.
Lemma enough_clean : forall G n, clean_upto G n n.
Proof.
  intros G n; induction n as [|n IH]; [split|].
  - intros F e L; pose proof (we_pos e); lia.
  - intros F ret s L; pose proof (ws_pos s); lia.
  - apply clean_step; auto.
Qed.

Definition wf (d : fdef) : nat := match f_body d with BBlock body => list_sum (map ws body) | BExpr e => we e | _ => 0 end.

Lemma fun_same : forall G n k d, wf d <= n -> check_fun (n + k) G d = check_fun n G d.
Proof.
  intros G n k d L; unfold check_fun, wf in *. destruct (enough_same G n k) as [HE HS]. destruct (declare _ _); [|destruct (f_body d); auto]. destruct (f_body d); auto.
  - destruct (_ && _); auto. erewrite block_ext; [reflexivity|]. intros F s I. apply HS. pose proof (in_sum ws _ _ I). lia.
  - rewrite HE by lia; auto.
Qed.
Lemma fun_clean : forall G n d, wf d <= n -> clean (fst (check_fun n G d)).
Proof.
  intros G n d L; unfold check_fun, wf in *. destruct (enough_clean G n) as [HE HS]. destruct (declare _ _); [|destruct (f_body d); cl]. destruct (f_body d); try (cl; fail).
  - destruct (_ && _); [cl|]. assert (Z : clean (fst (check_block (fun F s => check_stmt n G F (f_ret d) s) l body))).
    { apply block_clean. intros F s I. apply HS. pose proof (in_sum ws _ _ I). lia. }
    destruct (check_block _ _ _); exact Z.
  - specialize (HE l e L). destruct (check_expr n G l e) as [i [[c t]|]]; [|exact HE]. destruct (matches _ _); cl.
Qed.

Theorem checking_ends : forall P, exists n0, forall n, n0 <= n ->
  check_program n P = check_program n0 P /\ checked n P = checked n0 P /\ ~ In (Err OutOfFuel) (check_program n P).
Proof.
  intros P. exists (list_sum (map wf (p_funs P))). intros n L.
  assert (E : forall d, In d (p_funs P) -> check_fun n (p_env P) d = check_fun (list_sum (map wf (p_funs P))) (p_env P) d).
  { intros d I. replace n with (list_sum (map wf (p_funs P)) + (n - list_sum (map wf (p_funs P)))) by lia. apply fun_same. apply in_sum; auto. }
  repeat split.
  - unfold check_program. rewrite !flat_map_concat_map. f_equal. apply map_ext_in. intros d I. rewrite E; auto.
  - unfold checked. apply map_ext_in. intros d I. rewrite E; auto.
  - unfold check_program. intros I. apply in_flat_map in I as (d & D & I). revert I. apply fun_clean.
    pose proof (in_sum wf _ _ D). lia.
Qed.
