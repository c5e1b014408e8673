(** What the declarations give to the rules of the type checker. *)
From Coq Require Import String Ascii List Bool PeanoNat Lia.
From Verif Require Import TypeModel TypeSpec TypeGraph CheckModel CheckSpec CheckRules CheckComplete DeclModel DeclSpec DeclProofs.
Import ListNotations.
Local Open Scope string_scope.
Local Open Scope nat_scope.
Local Open Scope list_scope.

Definition env_mono (env : tenv) : Prop := forall x t, env x = Some t -> mono t.

Lemma params_mono : forall ps, Forall mono (map TParam ps).
Proof. induction ps; cbn; constructor; auto. constructor. Qed.
Lemma all_some_mono : forall l r, Forall (fun o => forall t, o = Some t -> mono t) l -> all_some l = Some r -> Forall mono r.
Proof.
  induction l as [|[a|] l IH]; intros r F E; cbn in E; try discriminate; [injection E as <-; constructor|].
  inversion F; subst. destruct (all_some l); [|discriminate]. injection E as <-. constructor; auto.
Qed.
Lemma combine_mono : forall ps us, Forall mono us -> monos (combine ps us).
Proof.
  induction ps as [|q ps IH]; intros us F p u E; [discriminate|]. destruct F as [|v us V F]; [discriminate|]. cbn in E.
  destruct (q =? p); [injection E as <-; exact V|]. exact (IH _ F _ _ E).
Qed.
Lemma instantiate_mono : forall env, env_mono env -> forall e t, snd (instantiate env e) = Some t -> mono t.
Proof.
  intros env M e.
  assert (L : forall es us, Forall (fun e => forall t, snd (instantiate env e) = Some t -> mono t) es ->
    all_some (map snd (map (instantiate env) es)) = Some us -> Forall mono us).
  { intros es us F. apply all_some_mono. clear -F. induction F; cbn; constructor; auto. }
  induction e as [n|n es IH|es IH|es r IH IHr|x IH] using texp_induct; intros t H; cbn in H.
  - destruct (env n) eqn:E; [|discriminate]. injection H as <-. eauto.
  - destruct (env n) as [u|] eqn:E; [|discriminate]. pose proof (M _ _ E) as Mu.
    destruct u; try discriminate.
    all: destruct (List.length types =? 0); [discriminate|]; destruct (negb _); [discriminate|];
      destruct (flat_map fst _); [|discriminate]; destruct (all_some _) as [us|] eqn:A; [|discriminate]; 
      apply (f_equal (fun o => match o with Some t => t | None => TNothing end)) in H; rewrite <- H;
      apply subst_mono; [apply combine_mono; eauto|exact Mu].
  - rewrite app_nil_r in H. destruct (flat_map fst _); [|discriminate]. destruct (all_some _) as [us|] eqn:A; [|discriminate].
    injection H as <-. constructor; [eauto|constructor].
  - destruct (flat_map fst _ ++ _); [|discriminate]. destruct (all_some _) as [us|] eqn:A; [|discriminate].
    destruct (snd (instantiate env r)) eqn:R; [|discriminate]. injection H as <-. constructor; eauto.
  - destruct (instantiate env x) as [[|? ?] [u|]] eqn:R; try discriminate. injection H as <-. constructor. apply IH. reflexivity.
Qed.
Lemma inst_all_mono : forall env l, env_mono env -> Forall mono (map snd (snd (inst_all env l))).
Proof.
  intros env l M. cbn. induction l as [|[x e] l IH]; cbn; constructor; auto.
  destruct (snd (instantiate env e)) eqn:I; [eapply instantiate_mono; eauto|constructor].
Qed.
Lemma inst_ret_mono : forall env r, env_mono env -> mono (snd (inst_ret env r)).
Proof.
  intros env [e|] M; cbn; [|constructor]. pose proof (instantiate_mono env M e) as I. destruct (instantiate env e) as [er [u|]]; cbn in *; [auto|constructor].
Qed.

Section Accepted.
  Variables (ds : list decl) (P : program) (l : list (decl * list (string * nat))) (root1 root' : rtab) (s : state).
  Hypothesis M : Made ds P l root1 root' s.

  Lemma types_mono : forall x t b, types_of (st_root s) x = Some (b, t) -> mono t.
  Proof.
    intros x t b H. destruct (root_types _ _ _ _ _ _ M _ _ _ H) as [(d & tbl & _ & _ & ->)|I].
    - destruct d; cbn; constructor; apply params_mono.
    - cbn in I. decompose [or] I; try contradiction; match goal with K : (_, _) = (_, _) |- _ => inversion K; subst; repeat constructor end.
  Qed.
  Lemma scope_mono : forall scope, env_mono (type_env scope (st_root s)).
  Proof.
    intros scope x t H. unfold type_env in H. destruct (assoc x scope); [injection H as <-; constructor|].
    pose proof (types_mono x t true) as T. unfold types_of in T. destruct (assoc x (st_root s)) as [[[[[|] u]|] fs]|]; try discriminate. injection H as <-. auto.
  Qed.
  Lemma inst_fun_eq : forall sig, snd (inst_fun (st_root s) sig) =
    Fdef (s_types sig) (snd (inst_all (type_env (s_types sig) (st_root s)) (s_params sig))) (snd (inst_ret (type_env (s_types sig) (st_root s)) (s_ret sig)))
      (make_body (type_env (s_types sig) (st_root s)) (s_body sig)).
  Proof. intros sig. unfold inst_fun. destruct (inst_all _ _), (inst_ret _ _); reflexivity. Qed.
  Lemma funs_mono : forall d, In d (p_funs P) -> Forall mono (map snd (f_params d)) /\ mono (f_ret d).
  Proof.
    intros d I. apply In_nth_error in I as [f H]. destruct (fun_inv _ _ _ _ _ _ M _ _ H) as [I|[(k & sig & -> & K & ->)|(i & x & tps & fs & tbl & _ & I & _ & ->)]].
    - cbn in I. destruct I as [<-|[<-|[]]]; cbn; repeat constructor.
    - rewrite inst_fun_eq. cbn [f_params f_ret]. split; [apply inst_all_mono, scope_mono|apply inst_ret_mono, scope_mono].
    - cbn. split; [apply (inst_all_mono _ fs), scope_mono|constructor; apply params_mono].
  Qed.
  Lemma funs_types : forall d, In d (p_funs P) -> NoDup (map snd (f_types d)).
  Proof.
    intros d I. apply In_nth_error in I as [f H]. destruct (fun_inv _ _ _ _ _ _ M _ _ H) as [I|[(k & sig & -> & K & ->)|(i & x & tps & fs & tbl & _ & I & _ & ->)]].
    - cbn in I. destruct I as [<-|[<-|[]]]; constructor.
    - pose proof (i_cons _ _ _ (m_inv _ _ _ _ _ _ M) _ _ K) as J. rewrite inst_fun_eq. cbn [f_types].
      destruct (s_body sig) as [b|x tag]; [destruct J as (? & ? & [_ J] & _); exact J|]. destruct J as (tbl & ms & st & m & J & _ & _ & _ & ->). apply enums_in in J as (tps & J).
      apply (l_numbered _ _ _ _ _ _ M _ _ J).
    - apply (l_numbered _ _ _ _ _ _ M _ _ I).
  Qed.
  Lemma made_tidy : tidy P.
  Proof.
    split.
    - intros x chain f i g ps r H I. apply entry_assoc in H. rewrite (g_names_at _ _ _ _ _ _ M) in H. destruct (assoc x root') as [y|] eqn:A; [|discriminate].
      cbn in H. injection H as H.
      assert (K : In (f, TFun i g ps r) (map (fun f => (f, fun_ty (p_funs P) f)) (r_funs y))).
      { unfold root_entry in H. destruct (r_type y) as [[b t]|] eqn:T; [|injection H as <-; exact I].
        destruct (map (fun f => (f, fun_ty (p_funs P) f)) (r_funs y)) as [|c cs]; [discriminate|]. injection H as <-. destruct I as [I|I]; [|exact I].
        exfalso. injection I as _ ->. destruct (m_new _ _ _ _ _ _ M _ _ A) as [A'|(j & _ & ->)]; [|discriminate].
        assert (TT : types_of (st_root s) x = Some (b, TFun i g ps r)) by (unfold types_of; rewrite A'; auto).
        destruct (root_types _ _ _ _ _ _ M _ _ _ TT) as [(d & tbl & _ & _ & Q)|Z]; [destruct d; discriminate|].
        cbn in Z. decompose [or] Z; try contradiction; discriminate. }
      apply in_map_iff in K as (f' & Q & _). injection Q as -> Q. unfold fun_ty in Q. destruct (nth_error (p_funs P) f) as [d|] eqn:N; [|discriminate].
      apply nth_error_In in N. injection Q as <- <- <- <-. destruct (funs_mono _ N). auto using funs_types.
    - intros n ps fs H. apply entry_assoc in H. destruct (struct_of_found _ _ _ _ _ _ M _ _ _ H) as (tps & fs0 & tbl & I & -> & ->).
      split; [apply (l_numbered _ _ _ _ _ _ M _ _ I)|apply (inst_all_mono _ fs0), scope_mono].
    - intros n ps ms H. apply entry_assoc in H. destruct (enum_of_found _ _ _ _ _ _ M _ _ _ H) as (tps & ms0 & tbl & I & ->).
      destruct (enum_found _ _ _ _ _ _ M _ _ _ _ I) as (start & A & _). rewrite H in A. injection A as ->.
      split; [apply (l_numbered _ _ _ _ _ _ M _ _ I)|apply seq_NoDup].
    - exact funs_mono.
  Qed.
  Lemma params_differ : forall d, In d (p_funs P) -> match f_body d with BStruct _ | BCons _ _ => True | _ => NoDup (map fst (f_types d) ++ map fst (f_params d)) end.
  Proof.
    intros d I. apply In_nth_error in I as [f H]. destruct (fun_inv _ _ _ _ _ _ M _ _ H) as [I|[(k & sig & -> & K & ->)|(i & x & tps & fs & tbl & _ & I & _ & ->)]].
    - cbn in I. destruct I as [<-|[<-|[]]]; cbn; repeat constructor; cbn; intuition discriminate.
    - pose proof (i_cons _ _ _ (m_inv _ _ _ _ _ _ M) _ _ K) as J. rewrite inst_fun_eq. cbn [f_body f_types f_params].
      destruct (s_body sig) as [b|x tag]; [|exact Logic.I]. destruct J as (tps & tbl & [J _] & Q). apply (l_in _ _ _ _ _ _ M) in Q.
      destruct (none_repeated _ _ _ _ _ _ M) as (_ & _ & _ & R). specialize (R _ Q). cbn in R.
      assert (NoDup (map fst (s_types sig) ++ map fst (snd (inst_all (type_env (s_types sig) (st_root s)) (s_params sig))))).
      { rewrite J. cbn. rewrite map_map. exact R. }
      destruct b; exact H0.
    - exact Logic.I.
  Qed.
End Accepted.

Lemma declared_tidy : forall ds P, declare_all ds = Accepted P -> tidy P.
Proof. intros ds P E. destruct (made _ _ E) as (l & root1 & root' & s & M). eapply made_tidy; eauto. Qed.
Lemma declared_params_differ : forall ds P, declare_all ds = Accepted P -> forall d, In d (p_funs P) ->
  match f_body d with BStruct _ | BCons _ _ => True | _ => NoDup (map fst (f_types d) ++ map fst (f_params d)) end.
Proof. intros ds P E. destruct (made _ _ E) as (l & root1 & root' & s & M). eapply params_differ; eauto. Qed.
