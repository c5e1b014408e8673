(** What is on the left of assignments, in every program, accepted or not. *)
From Coq Require Import String List Bool PeanoNat.
From Verif Require Import TypeModel CheckModel CheckAssign.
Import ListNotations.

(** What the tree of an assignment may have on the left. *)
Definition written (l : cexpr) : Prop :=
  match l with
  | CVar _ | CField _ _ _ | CIndex _ _ => True
  | CDeref _ | CFun _ | CType _ | CCall _ _ | CPrint _ | CUnsafe _ => True
  | _ => False
  end.
Definition fine (x : part) : Prop := forall l r, within x (AStmt (KAs l r)) -> written l.
Definition fine_e (e : cexpr) : Prop := fine (AnExpr e).
Definition fine_k (k : cstmt) : Prop := fine (AStmt k).
Definition fine_r (r : res) : Prop := forall c t, snd r = Some (c, t) -> fine_e c.
Definition top (x : part) : Prop := match x with AStmt (KAs l _) => written l | _ => True end.

Lemma fine_intro x : top x -> (forall y, has x y -> fine y) -> fine x.
Proof. intros H1 H2 l r H. inversion H; subst; [exact H1|]. eapply H2; eassumption. Qed.
Ltac parts := apply fine_intro; [exact I|]; let H := fresh "Hpart" in intros ? H; inversion H; subst; auto.
Ltac inside_list := match goal with F : Forall _ ?l, I : In _ ?l |- _ => rewrite Forall_forall in F; exact (F _ I) end.

Lemma fine_none i : fine_r (i, None). Proof. intros c t H. discriminate. Qed.
Lemma fine_some i c t : fine_e c -> fine_r (i, Some (c, t)). Proof. intros H c' t' E. injection E as <- <-. exact H. Qed.
#[local] Hint Resolve fine_none fine_some : core.

Lemma fine_binary valid t mk rl rr : (forall a b, fine_e a -> fine_e b -> fine_e (mk a b)) -> fine_r rl -> fine_r rr -> fine_r (binary valid t mk rl rr).
Proof.
  intros M L R. unfold binary, fail. destruct (snd rl) as [[cl tl]|] eqn:El; [|auto]. destruct (snd rr) as [[cr tr]|] eqn:Er; [|auto].
  destruct (negb (valid tl)); [auto|]. destruct (negb (valid tr)); [auto|]. apply fine_some, M; [exact (L _ _ El)|exact (R _ _ Er)].
Qed.
Lemma fine_comparison o rl rr : fine_r rl -> fine_r rr -> fine_r (comparison o rl rr).
Proof.
  intros L R. unfold comparison, fail. destruct (snd rl) as [[cl tl]|] eqn:El; [|auto]. destruct (snd rr) as [[cr tr]|] eqn:Er; [|auto].
  apply L in El. apply R in Er. destruct (negb (matches tl tr)); [auto|]. apply fine_some. parts.
Qed.
Lemma fine_unary valid t mk r : (forall a, fine_e a -> fine_e (mk a)) -> fine_r r -> fine_r (unary valid t mk r).
Proof. intros M R. unfold unary, fail. destruct (snd r) as [[c u]|] eqn:E; [|auto]. destruct (valid u); [|auto]. apply fine_some, M. exact (R _ _ E). Qed.
Lemma fine_index rl rr : fine_r rl -> fine_r rr -> fine_r (index rl rr).
Proof.
  intros L R. unfold index, fail. destruct (snd rl) as [[cl tl]|] eqn:El; [|auto]. destruct (snd rr) as [[cr tr]|] eqn:Er; [|auto].
  apply L in El. apply R in Er. destruct (negb (is_int tr)); [auto|]. destruct tl; auto. apply fine_some. parts.
Qed.
Lemma fine_select G i cl tl x : fine_e cl -> fine_r (select G i cl tl x).
Proof.
  intros H. unfold select, fail. destruct tl; auto; repeat match goal with |- context [match ?e with _ => _ end] => destruct e; auto end; apply fine_some; parts.
Qed.
Lemma fine_ternary rc ra rb : fine_r rc -> fine_r (ra tt) -> fine_r (rb tt) -> fine_r (ternary rc ra rb).
Proof.
  intros C A B. unfold ternary, fail. destruct rc as [ic [[cc tc]|]]; [|auto]. specialize (C _ _ eq_refl). destruct (negb (is_bool tc)); [auto|].
  destruct (ra tt) as [ia [[ca ta]|]]; [|auto]. specialize (A _ _ eq_refl). destruct (rb tt) as [ib [[cb tb]|]]; [|auto]. specialize (B _ _ eq_refl).
  destruct (negb (matches ta tb)); [auto|]. apply fine_some. parts.
Qed.
Lemma fine_array check es : (forall e, fine_r (check e)) -> forall first i cs t, array_lit check first es = (i, Some (cs, t)) -> Forall fine_e cs.
Proof.
  intros Hc. induction es as [|e es IH]; intros first i cs t H; cbn in H; [injection H as <- <- <-; constructor|].
  specialize (Hc e). destruct (check e) as [ie [[c u]|]]; [|discriminate]. destruct (negb _); [discriminate|].
  destruct (array_lit check _ es) as [i1 [[cs1 f1]|]] eqn:E; [|discriminate]. injection H as <- <- <-. constructor; [exact (Hc _ _ eq_refl)|eapply IH; exact E].
Qed.
Lemma fine_ident G F x a i c t ch : check_ident G F x a = (i, Some (c, t, ch)) -> fine_e c.
Proof.
  unfold check_ident. intros H. destruct (resolve G F x);
    repeat match type of H with context [match ?e with _ => _ end] => destruct e end; try discriminate; injection H as _ <- _ _; parts.
Qed.
Lemma fine_args G F check es : (forall e, fine_r (check e)) -> forall i l, check_args G F check es = (i, Some l) -> Forall fine_e (map fst l).
Proof.
  intros Hc. induction es as [|e es IH]; intros i l H; cbn [check_args] in H; [injection H as <- <-; constructor|].
  destruct (match e with EId x => _ | _ => _ end) as [ie [a|]] eqn:E; [|discriminate].
  destruct (check_args G F check es) as [i1 [l1|]] eqn:E1; [|discriminate]. injection H as <- <-. cbn [map]. constructor; [|eapply IH; reflexivity].
  clear E1. specialize (Hc e).
  destruct e; try (match type of E with context [check ?x] => destruct (check x) as [j [[c u]|]] end; [|discriminate]; injection E as _ <-; exact (Hc _ _ eq_refl)).
  destruct (check_ident G F x true) as [j [[[c u] ch]|]] eqn:Q; [|discriminate]. injection E as _ <-. exact (fine_ident _ _ _ _ _ _ _ _ Q).
Qed.
Lemma fine_settle l : forall after, Forall fine_e (map fst l) -> Forall fine_e (settle_all l after).
Proof.
  induction l as [|a l IH]; intros [|b after] H; cbn; try constructor; inversion H; subst; [|auto].
  unfold settle. destruct (overloaded (snd a)); [|auto]. destruct (ar_chain b) as [|[f ?] ?]; [auto|parts].
Qed.
Lemma fine_call_of f args : fine_e f -> Forall fine_e args -> fine_e (CCall f args).
Proof. intros Hf Ha. parts. inside_list. Qed.
Lemma fine_resolve G name cf tf chain ts i args : fine_e cf -> Forall fine_e (map fst args) -> fine_r (resolve_call G name cf tf chain ts i args).
Proof.
  intros Hf Ha. unfold resolve_call, fail. destruct (_ || _).
  - destruct (match chain with [] => _ | _ => _ end); apply fine_some; [parts; inside_list|now apply fine_call_of].
  - destruct (String.eqb name "unsafe").
    + destruct args as [|a [|b [|[c u] [|]]]]; auto. apply fine_some. parts. inside_list.
    + destruct chain.
      * destruct (match_by_type tf ts (map snd args)) as [[t|e] after]; [|auto]. apply fine_some, fine_call_of; [exact Hf|now apply fine_settle].
      * destruct (match_by_symbol _ ts (map snd args)) as [[[f t]|es] after]; [apply fine_some, fine_call_of; [parts|now apply fine_settle]|destruct es as [|? [|]]; auto].
Qed.
Lemma fine_call G F check f ts first args : (forall e, fine_r (check e)) -> Forall fine_e (map fst first) -> fine_r (CheckModel.call G F check f ts first args).
Proof.
  intros Hc Hf. unfold CheckModel.call, fail. destruct (_ <? _); [auto|].
  destruct (match f with EId _ => _ | _ => _ end) as [isrc [[[cf tf] chain]|]] eqn:E; [|auto].
  assert (Hcf : fine_e cf).
  { specialize (Hc f). destruct f; try discriminate E;
      try (match type of E with context [check ?x] => destruct (check x) as [j [[c u]|]] end; [|discriminate]; injection E as _ <- _ _; exact (Hc _ _ eq_refl)).
    destruct (check_ident G F x true) as [j [[[c u] ch]|]] eqn:Q; [|discriminate]. cbn in E. injection E as _ <- _ _. exact (fine_ident _ _ _ _ _ _ _ _ Q). }
  destruct (check_args G F check args) as [ia [l|]] eqn:El; [|auto]. apply fine_resolve; [exact Hcf|]. rewrite map_app. apply Forall_app. split; [exact Hf|exact (fine_args _ _ _ _ Hc _ _ El)].
Qed.
Lemma fine_assignment i cl tl cr tr : fine_e cl -> fine_e cr -> fine_k (snd (assignment i cl tl cr tr)).
Proof.
  intros L R. unfold assignment.
  assert (N : fine_k KNone) by parts.
  assert (K : written cl -> fine_k (KAs cl cr)) by (intros Hw; apply fine_intro; [exact Hw|]; intros y Hy; inversion Hy; subst; auto).
  destruct cl; cbn [snd]; try exact N;
    repeat match goal with |- context [if ?b then _ else _] => destruct b; cbn [snd]; try exact N | |- context [match tl with _ => _ end] => destruct tl; cbn [snd]; try exact N end;
    apply K; exact I.
Qed.
Lemma fine_block check ss : (forall F s, fine_k (snd (check F s))) -> forall F, Forall fine_k (snd (check_block check F ss)).
Proof.
  intros Hc. induction ss as [|s ss IH]; intros F; cbn; [constructor|]. specialize (Hc F s). destruct (check F s) as [[i F'] k].
  specialize (IH F'). destruct (check_block check F' ss) as [i' ks]. constructor; assumption.
Qed.
Lemma fine_cases G F block b ms cases : (forall F ss, Forall fine_k (snd (block F ss))) ->
  forall seen, Forall (fun c => Forall fine_k (snd c)) (snd (check_cases G F block b ms seen cases)).
Proof.
  intros Hb. induction cases as [|[[x xs] body] rest IH]; intros seen; cbn [check_cases]; [constructor|].
  destruct (match resolve G F x with FNone => _ | _ => _ end) as [[[f ps] notes]|].
  2:{ specialize (IH seen). destruct (check_cases G F block b ms seen rest). exact IH. }
  destruct (if negb (length ps =? length xs) then _ else _) as [ib kb] eqn:E.
  assert (Hk : Forall fine_k kb).
  { destruct (negb (length ps =? length xs)); [injection E as _ <-; constructor|]. destruct (case_vars [] xs _) as [iv fr]. specialize (Hb (fr :: F) body).
    destruct (block (fr :: F) body). injection E as _ <-. exact Hb. }
  destruct (member ms f); [destruct (existsb (Nat.eqb f) seen)|].
  - specialize (IH seen). destruct (check_cases G F block b ms seen rest). exact IH.
  - specialize (IH (f :: seen)). destruct (check_cases G F block b ms (f :: seen) rest). constructor; [exact Hk|exact IH].
  - specialize (IH seen). destruct (check_cases G F block b ms seen rest). exact IH.
Qed.
Lemma walk_fine n G : (forall F e, fine_r (check_expr n G F e)) /\ (forall F ret s, fine_k (snd (check_stmt n G F ret s))).
Proof.
  induction n as [|n [IHe IHs]]; [split; [intros; apply fine_none|intros; parts]|].
  assert (IHb : forall ret F ss, Forall fine_k (snd (check_block (fun F s => check_stmt n G F ret s) F ss))) by (intros; apply fine_block; auto).
  assert (N : fine_k KNone) by parts.
  split.
  - intros F e. destruct e; cbn [check_expr]; auto.
    + apply fine_some. parts.
    + destruct (check_ident G F x false) as [i [[[c t] ch]|]] eqn:E; [|auto]. apply fine_some. exact (fine_ident _ _ _ _ _ _ _ _ E).
    + apply fine_binary; auto. intros; parts.
    + apply fine_binary; auto. intros; parts.
    + apply fine_comparison; auto.
    + apply fine_unary; auto. intros; parts.
    + apply fine_unary; auto. intros; parts.
    + apply fine_unary; auto. intros; parts.
    + apply fine_call; auto. constructor.
    + pose proof (IHe F e1) as H1. destruct (check_expr n G F e1) as [il [[cl tl]|]]; [|auto]. specialize (H1 _ _ eq_refl).
      destruct e2; unfold fail; auto.
      * apply fine_select. exact H1.
      * destruct (CheckModel.has_field G tl (name_of e2)).
        -- pose proof (IHe F (ECall (EDot e1 e2) ts args)) as H2. destruct (check_expr n G F _) as [i r]. exact H2.
        -- pose proof (fine_call G F (check_expr n G F) e2 ts [(cl, Arg tl [])] args (IHe F) (Forall_cons _ H1 (Forall_nil _))) as H2.
           destruct (CheckModel.call _ _ _ _ _ _ _) as [i r]. exact H2.
      * match goal with |- context [check_expr n G F ?x] => pose proof (IHe F x) as H2; destruct (check_expr n G F x) as [i r] end. exact H2.
    + apply fine_index; auto.
    + destruct es as [|e es]; [auto|]. destruct (array_lit (check_expr n G F) None (e :: es)) as [i [[cs [t|]]|]] eqn:E; auto.
      apply fine_some. pose proof (fine_array _ _ (IHe F) _ _ _ _ E) as H. parts. inside_list.
    + apply fine_ternary; auto.
    + destruct (declare _ _) as [F'|]; [|auto]. destruct (_ && _); [auto|]. pose proof (IHb ret F' body) as H.
      destruct (check_block _ F' body) as [i ks]. apply fine_some. cbn [snd] in H. parts. inside_list.
    + destruct (declare _ _) as [F'|]; [|auto].
      match goal with |- context [check_expr n G F' ?x] => pose proof (IHe F' x) as H2; destruct (check_expr n G F' x) as [i [[c t]|]] end.
      * specialize (H2 _ _ eq_refl). apply fine_some. parts.
      * apply fine_some. parts. parts.
    + apply fine_some. parts.
  - intros F ret s. destruct s; cbn [check_stmt].
    + pose proof (IHe F e) as H. destruct (check_expr n G F e) as [i [[c t]|]]; [|exact N]. specialize (H _ _ eq_refl). parts.
    + pose proof (IHe F r) as H. destruct (check_expr n G F r) as [i [[c t]|]]; [|exact N]. specialize (H _ _ eq_refl).
      destruct l; try exact N. destruct (define F x (LVar t)); [|exact N]. parts.
    + pose proof (IHe F r) as Hr. pose proof (IHe F l) as Hl.
      destruct (snd (check_expr n G F r)) as [[cr tr]|] eqn:Er; [|exact N]. destruct (snd (check_expr n G F l)) as [[cl tl]|] eqn:El; [|exact N].
      pose proof (fine_assignment (fst (check_expr n G F r) ++ fst (check_expr n G F l)) cl tl cr tr (Hl _ _ El) (Hr _ _ Er)) as H.
      destruct (assignment _ _ _ _ _) as [i k]. exact H.
    + pose proof (IHe F c) as H. destruct (check_expr n G F c) as [i [[cc t]|]]; [|exact N]. specialize (H _ _ eq_refl).
      destruct (negb _); [exact N|]. pose proof (IHb ret ([] :: F) body) as Hb. destruct (check_block _ _ body) as [ib ks]. cbn [snd] in Hb |- *. parts. inside_list.
    + pose proof (IHe F e) as H. destruct (check_expr n G F e) as [i [[cc t]|]]; [|exact N]. specialize (H _ _ eq_refl).
      destruct t; try exact N. match goal with |- context [check_block _ ?F1 body] => pose proof (IHb ret F1 body) as Hb; destruct (check_block _ F1 body) as [ib ks] end. cbn [snd] in Hb |- *. parts. inside_list.
    + assert (H : fine_r (binary is_int TInt (CArith OAdd) (check_expr n G F a) (check_expr n G F b))) by (apply fine_binary; auto; intros; parts).
      destruct (binary _ _ _ _ _) as [i [[c t]|]]; [|exact N]. specialize (H _ _ eq_refl). destruct c; try exact N.
      assert (H1 : fine_e c1) by (intros l0 r0 Hw; eapply H; eapply within_below; [apply has_arith_l|exact Hw]).
      assert (H2 : fine_e c2) by (intros l0 r0 Hw; eapply H; eapply within_below; [apply has_arith_r|exact Hw]).
      match goal with |- context [check_block _ ?F1 body] => pose proof (IHb ret F1 body) as Hb; destruct (check_block _ F1 body) as [ib ks] end. cbn [snd] in Hb |- *. parts. inside_list.
    + pose proof (IHe F c) as H. destruct (check_expr n G F c) as [i [[cc t]|]]; [|exact N]. specialize (H _ _ eq_refl).
      destruct (negb _); [exact N|]. pose proof (IHb ret ([] :: F) body) as Hb. destruct (check_block _ _ body) as [ib ks]. cbn [snd] in Hb.
      destruct rest as [r|]; [|cbn [snd]; parts; inside_list].
      pose proof (IHs F ret r) as Hr. destruct (check_stmt n G F ret r) as [[ir F1] kr]. cbn [snd] in Hr |- *. parts. inside_list.
    + pose proof (IHb ret ([] :: F) body) as Hb. destruct (check_block _ _ body) as [ib ks]. cbn [snd] in Hb |- *. parts. inside_list.
    + destruct e as [e|]; [|destruct (matches ret TNothing); [parts|exact N]].
      pose proof (IHe F e) as H. destruct (check_expr n G F e) as [i [[cc t]|]]; [|exact N]. specialize (H _ _ eq_refl). destruct (matches ret t); [|exact N]. cbn [snd]. parts.
    + pose proof (IHe F e) as H. destruct (check_expr n G F e) as [i [[cc t]|]]; [|exact N]. specialize (H _ _ eq_refl). destruct t; try exact N.
      destruct (assoc _ (g_enums G)) as [[ps ms]|]; [|exact N].
      match goal with |- context [check_cases G F ?bl ?b ms [] cases] => pose proof (fine_cases G F bl b ms cases (IHb ret) []) as Hc; destruct (check_cases G F bl b ms [] cases) as [ic ks] end.
      cbn [snd] in Hc. destruct (errors (i ++ ic)); [|exact N]. destruct (_ =? _); [|exact N]. cbn [snd]. parts.
      match goal with I : In (_, _, ?b0) ks, J : In _ ?b0 |- _ => rewrite Forall_forall in Hc; specialize (Hc _ I); cbn [snd] in Hc; rewrite Forall_forall in Hc; exact (Hc _ J) end.
Qed.

Theorem written_only P n f b l r : nth_error (checked n P) f = Some b -> in_body b (AStmt (KAs l r)) -> written l.
Proof.
  intros Hb Hi. unfold checked in Hb. rewrite nth_error_map in Hb. destruct (nth_error (p_funs P) f) as [d|]; [|discriminate]. cbn in Hb. injection Hb as <-.
  destruct (walk_fine n (p_env P)) as [We Ws]. unfold check_fun in Hi. destruct (f_body d); try contradiction.
  - destruct (declare _ _) as [F|]; [|contradiction]. destruct (_ && _); [contradiction|].
    pose proof (fine_block (fun F s => check_stmt n (p_env P) F (f_ret d) s) body (fun F s => Ws F (f_ret d) s) F) as H.
    destruct (check_block _ F body) as [i ks]. cbn [snd in_body] in H, Hi. destruct Hi as (k & Hk & Hw). rewrite Forall_forall in H. exact (H _ Hk _ _ Hw).
  - destruct (declare _ _) as [F|]; [|contradiction]. pose proof (We F e) as H. destruct (check_expr n (p_env P) F e) as [i [[c t]|]]; [|contradiction].
    exact (H _ _ eq_refl _ _ Hi).
Qed.
