(** What is written is parsed back: expressions and statements. *)
From Coq Require Import ZArith List Bool Arith Lia.
From Verif Require Import LexModel ParseModel ParseSpec ParseTotal ParseShow.
Import ListNotations.
Open Scope nat_scope.

Lemma show_first : forall e, show e <> [] /\
  in_kinds (first (show e)) [KIdentifier; KInteger; KString; KTrue; KFalse; KLParen; KFn; KType; KLBrack; KNot; KBNot; KMin] = true.
Proof.
  assert (H : forall e w, show e <> [] /\ in_kinds (first (show e)) [KIdentifier; KInteger; KString; KTrue; KFalse; KLParen; KFn; KType; KLBrack; KNot; KBNot; KMin] = true ->
    show e ++ w <> [] /\ in_kinds (first (show e ++ w)) [KIdentifier; KInteger; KString; KTrue; KFalse; KLParen; KFn; KType; KLBrack; KNot; KBNot; KMin] = true).
  { intros e w [H1 H2]. destruct (show e) as [|[k v] l]; [congruence|]. split; [discriminate|exact H2]. }
  fix IH 1. intros [x|li|e|u e|o a b|c a b|a i|f args|f ts args|es|t|tps ps r b]; cbn [show]; try (apply H, IH); split; try discriminate; try reflexivity.
  - destruct li; reflexivity.
  - destruct u; reflexivity.
Qed.
Lemma show_first_not e k : in_kinds k [KIdentifier; KInteger; KString; KTrue; KFalse; KLParen; KFn; KType; KLBrack; KNot; KBNot; KMin] = false -> first (show e) <> k.
Proof. intros H E. destruct (show_first e) as [_ F]. rewrite E in F. congruence. Qed.
Lemma show_stmt_first s : fits_stmt true true s = true -> show_stmt s <> [] /\ in_kinds (first (show_stmt s)) [KRBrace; KCase] = false.
Proof.
  assert (H : forall e w, begins (first (show e)) = true -> show e ++ w <> [] /\ in_kinds (first (show e ++ w)) [KRBrace; KCase] = false).
  { intros e w Hb. destruct (show_first e) as [F _]. destruct (show e) as [|[k v] l]; [congruence|]. split; [discriminate|]. cbn [app first] in *. clear F.
    unfold begins, in_kinds in Hb. apply existsb_exists in Hb as (y & Hy & E). apply kind_eqb_eq in E. subst k. cbn in Hy.
    repeat (destruct Hy as [<-|Hy]; [reflexivity|]). destruct Hy. }
  destruct s as [[e|]|c l|x e to l|c l b|e cs|a e|a e|e]; cbn [show_stmt fits_stmt if_ negb orb]; intros Hf; try (split; [discriminate|reflexivity]).
  - apply andb_true_iff in Hf as [Hf _]. apply andb_true_iff in Hf as [Hf _]. now apply H.
  - apply andb_true_iff in Hf as [Hf _]. apply andb_true_iff in Hf as [Hf _]. now apply H.
  - apply andb_true_iff in Hf as [Hf _]. specialize (H e [] Hf). now rewrite app_nil_r in H.
Qed.
Lemma flat_in {A} (sh : A -> list word) x l : In x l -> List.length (sh x) <= List.length (flat_map sh l).
Proof. induction l as [|y l IH]; [contradiction|]. intros H. cbn. rewrite app_length. destruct H as [->|H]; [lia|]. specialize (IH H). lia. Qed.
Lemma stmt_ends_close s k : k = KRBrace \/ k = KCase -> stmt_ends s k = true.
Proof. intros [->| ->]; destruct s as [[e|]|c l|x e to l|c l b|e cs|a e|a e|e]; reflexivity. Qed.
Lemma ends_all_change {A} (ends : A -> kind -> bool) sh l k k' : (forall x, ends x k' = true) -> ends_all ends sh l k = true -> ends_all ends sh l k' = true.
Proof.
  intros H. induction l as [|x l IH]; [auto|]. cbn. rewrite !andb_true_iff. intros [H1 H2]. split; [|auto]. destruct l; auto.
Qed.

Definition claim (e : expr) : Prop := forall n l w r Q, map look w = show e -> fits true true l e = true -> r <> [] -> next_precedence (hdk r) <= edge e ->
  (forall m x, erase x = node_of e -> G (infix_loop m l x) (at_ r) Q) -> G (parse_expr n l) (at_ (w ++ r)) Q.
Definition stmt_claim (s : stmt) : Prop := forall n w r, map look w = show_stmt s -> fits_stmt true true s = true -> r <> [] -> stmt_ends s (hdk r) = true ->
  G (parse_statement n) (at_ (w ++ r)) (res (fun x => erase x = node_stmt s) r).
Lemma G_stop m l x r (Q : node -> state -> Prop) : r <> [] -> next_precedence (hdk r) <= l -> Q x (at_ r) -> G (infix_loop m l x) (at_ r) Q.
Proof.
  intros Hr Hn HQ. destruct m as [|m]; [exact I|]. cbn [infix_loop]. apply G_bind, G_kind; [exact Hr|]. destruct (l <? _) eqn:E; [apply Nat.ltb_lt in E; lia|]. exact HQ.
Qed.
Lemma claim_at e n l w r : claim e -> map look w = show e -> fits true true l e = true -> r <> [] -> next_precedence (hdk r) <= edge e -> next_precedence (hdk r) <= l ->
  G (parse_expr n l) (at_ (w ++ r)) (res (fun x => erase x = node_of e) r).
Proof. intros H Hw Hf Hr He Hl. apply H; auto. intros m x Hx. apply G_stop; auto. now split. Qed.
Lemma claim_end e n w r : claim e -> map look w = show e -> fits true true 0 e = true -> r <> [] -> next_precedence (hdk r) = 0 ->
  G (parse_expr n 0) (at_ (w ++ r)) (res (fun x => erase x = node_of e) r).
Proof. intros. apply claim_at; auto; lia. Qed.
Lemma list_claim close l n w t r : close = KRParen \/ close = KRBrack -> (forall e, In e l -> claim e) -> forallb (fits true true 0) l = true ->
  map look w = commas (map show l) -> tk_kind t = close -> r <> [] ->
  G (list_until n close (parse_expr n 0)) (at_ (w ++ t :: r)) (res (fun ns => map erase ns = map node_of l) r).
Proof.
  intros Hc Hl Hf Hw Ht Hr. rewrite forallb_forall in Hf. apply (G_list (parse_expr n 0) show node_of); auto.
  - destruct Hc as [->| ->]; discriminate.
  - intros e _. split; [apply show_first|]. apply show_first_not. destruct Hc as [->| ->]; reflexivity.
  - intros e He. split; intros u v Hu Hv Hk; apply claim_end; auto; rewrite Hk; [reflexivity|]. destruct Hc as [->| ->]; reflexivity.
Qed.
Lemma continues_prec k : continues k = false -> next_precedence k = 0.
Proof. destruct k; cbn; congruence. Qed.
Lemma bin_next o : next_precedence (bin_kind o) = bin_prec o.
Proof. destruct o; reflexivity. Qed.
Lemma infix_bin m x t o : tk_kind t = bin_kind o ->
  parse_infix (S m) x t = (r <- parse_expr m (bin_prec o) ;; ret (Node no_attrs (bin_op o) t (Some x) (Some r) [] [])).
Proof. intros H. cbn [parse_infix]. rewrite H. destruct o; reflexivity. Qed.

(** Statements in braces. *)
Lemma stmts_claim close l n w r stop : close = KRBrace \/ close = KCase -> In close stop -> (forall k, in_kinds k [KRBrace; KCase] = false -> in_kinds k stop = false) ->
  (forall s, In s l -> stmt_claim s) -> fits_block true true l = true ->
  map look w = flat_map show_stmt l -> r <> [] -> hdk r = close ->
  G (many n stop (parse_statement n)) (at_ (w ++ r)) (res (fun ns => map erase ns = map node_stmt l) r).
Proof.
  intros Hc Hin Hst Hl Hf Hw Hr Hk. unfold fits_block in Hf. cbn [if_ negb orb] in Hf. apply andb_true_iff in Hf as [Hf1 Hf2]. rewrite forallb_forall in Hf2.
  apply (G_many (parse_statement n) show_stmt node_stmt stmt_ends stop close); auto.
  - intros s Hs. destruct (show_stmt_first s (Hf2 s Hs)) as [H1 H2]. split; [exact H1|]. now apply Hst.
  - intros s Hs k He u v Hu Hv Hkv. apply Hl; auto. now rewrite Hkv.
  - eapply ends_all_change; [|exact Hf1]. intros s. now apply stmt_ends_close.
Qed.
Lemma block_claim l n w r : (forall s, In s l -> stmt_claim s) -> fits_block true true l = true -> map look w = show_block l -> r <> [] ->
  G (parse_block n) (at_ (w ++ r)) (res (fun ns => map erase ns = map node_stmt l) r).
Proof.
  intros Hl Hf Hw Hr. destruct n as [|n]; [exact I|]. cbn [parse_block]. unfold show_block in Hw. words. kinds. cbn [app]. apply G_bind, G_need; [assumption|live|].
  rewrite <- app_assoc. cbn [app]. eapply G_then; [apply (stmts_claim KRBrace l); auto; try eassumption; try discriminate|].
  - now left.
  - intros k Hk. unfold in_kinds in *. cbn in *. now destruct (kind_eqb k KRBrace).
  - intros ns Hns. apply G_bind, G_need; [assumption|exact Hr|]. apply G_ret. split; [reflexivity|exact Hns].
Qed.

Ltac len := repeat (progress (cbn [length] in *; rewrite ?app_length in * )); lia.
Ltac hd := match goal with H : tk_kind ?t = _ |- context [tk_kind ?t] => rewrite H end.
Ltac strip := repeat match goal with H : look ?t = _ |- context [strip ?t] => rewrite (look_strip t _ H) end.
Ltac split_and := repeat match goal with H : (_ && _)%bool = true |- _ => apply andb_true_iff in H; destruct H end.
Section Step.
Variable N : nat.
Hypothesis IHe : forall e, List.length (show e) <= N -> claim e.
Hypothesis IHs : forall s, List.length (show_stmt s) <= N -> stmt_claim s.

Lemma body_claim b : List.length (show_body b) <= N -> forall n w r t (Q : node -> state -> Prop) attrs id res0 tl ps anon, map look w = show_body b -> fits_body true true b = true -> r <> [] ->
  next_precedence (hdk r) <= match b with Expr _ => 0 | _ => 14 end -> t = hdk (w ++ r) ->
  (forall l, map erase l = nodes_body b -> Q (Node attrs (block_op b) id res0 tl l ps) (at_ r)) ->
  G (match t with
    | KLBrace => l <- parse_block n ;; ret (Node attrs OpBlockFn id res0 tl l ps)
    | KAs => next ;; e <- parse_expr n 0 ;; ret (Node attrs OpExprFn id res0 tl [e] ps)
    | _ =>
      if anon : bool then syntax_error XFnBody ;; next ;; ret (Node attrs OpBlockFn id res0 tl [] ps)
      else ret (Node attrs OpExternFn id res0 tl [] ps)
    end) (at_ (w ++ r)) Q.
Proof.
  intros L n w r t Q attrs id res0 tl ps anon Hw Hf Hr He Ht K. destruct (words_first w _ Hw) as [_ Ef]; [destruct b; discriminate|]. rewrite Ef in Ht. subst t.
  destruct b as [l|e]; cbn [show_body first sym] in *.
  - eapply G_then; [apply (block_claim l); [|exact Hf|exact Hw|exact Hr]|].
    + intros s Hs. apply IHs. pose proof (flat_in show_stmt s l Hs). len.
    + intros ns Hns. apply G_ret, K. exact Hns.
  - words. cbn [app]. apply G_bind, G_next; [live|]. eapply G_then; [apply (claim_end e); [apply IHe; len|eassumption|exact Hf|exact Hr|lia]|].
    intros y Hy. apply G_ret, K. cbn. now rewrite Hy.
Qed.

Lemma expr_step e : List.length (show e) <= S N -> claim e.
Proof.
  intros L n l w r Q Hw Hf Hr He K. destruct e as [x|li|e|u e|o a b|c a b|a i|f args|f ts args|es|t|tps ps o b]; cbn [show] in Hw, L; cbn [fits if_ negb orb] in Hf; split_and.
  - destruct n as [|n]; [exact I|]. words. kinds. cbn [app parse_expr]. apply G_bind, G_next; [live|]. hd. apply G_bind, G_ret, K. cbn. strip. reflexivity.
  - destruct n as [|n]; [exact I|]. words. cbn [app parse_expr]. apply G_bind, G_next; [live|].
    destruct li; cbn [show_lit] in *; kinds; hd; apply G_bind, G_ret, K; cbn; strip; reflexivity.
  - destruct n as [|n]; [exact I|]. words. kinds. cbn [app parse_expr]. apply G_bind, G_next; [live|]. hd. apply G_bind. rewrite <- app_assoc. cbn [app].
    eapply G_then; [apply (claim_end e); [apply IHe; len|eassumption|assumption|live|cbn [hdk]; hd; reflexivity]|]. intros y Hy.
    apply G_bind, G_need; [assumption|exact Hr|]. apply G_ret, K, Hy.
  - destruct n as [|n]; [exact I|]. words. kinds. cbn [app parse_expr]. apply G_bind, G_next; [live|]. hd. cbn [edge] in He.
    assert (E : match un_kind u with KNot | KBNot | KMin => precedence (un_kind u) | _ => 0 end = un_prec 9 u) by (destruct u; reflexivity).
    destruct u; cbn [un_kind un_prec] in *; apply G_bind; (eapply G_then; [apply (claim_at e); [apply IHe; len|eassumption|assumption|exact Hr|lia|cbn; lia]|]); intros y Hy;
      apply G_ret, K; cbn; strip; now rewrite Hy.
  - words. kinds. rewrite <- app_assoc. cbn [app edge] in *. apply (IHe a ltac:(len)); auto; try discriminate.
    { cbn [hdk]. hd. rewrite bin_next. apply Nat.leb_le. assumption. }
    intros m y Hy. destruct m as [|m]; [exact I|]. cbn [infix_loop]. apply G_bind, G_kind; [discriminate|]. cbn [hdk]. hd. rewrite bin_next.
    match goal with H : (l <? _) = true |- _ => rewrite H end. cbn [negb]. apply G_bind, G_next; [live|]. apply G_bind. destruct m as [|m]; [exact I|].
    rewrite (infix_bin m y _ o) by assumption. eapply G_then; [apply (claim_at b); [apply IHe; len|eassumption|assumption|exact Hr|lia|lia]|].
    intros z Hz. apply G_ret. apply K. cbn. strip. now rewrite Hy, Hz.
  - words. kinds. rewrite <- app_assoc. cbn [app edge] in *. apply (IHe c ltac:(len)); auto; try discriminate.
    { cbn [hdk]. hd. apply Nat.leb_le. assumption. }
    intros m y Hy. destruct m as [|m]; [exact I|]. cbn [infix_loop]. apply G_bind, G_kind; [discriminate|]. cbn [hdk]. hd. change (next_precedence KQuestion) with 1.
    match goal with H : (l <? _) = true |- _ => rewrite H end. cbn [negb]. apply G_bind, G_next; [live|]. apply G_bind. destruct m as [|m]; [exact I|].
    cbn [parse_infix]. hd. rewrite <- app_assoc. cbn [app]. eapply G_then; [apply (claim_end a); [apply IHe; len|eassumption|assumption|live|cbn [hdk]; hd; reflexivity]|].
    intros z Hz. apply G_bind, G_need; [assumption|live|]. eapply G_then; [apply (claim_end b); [apply IHe; len|eassumption|assumption|exact Hr|lia]|].
    intros v Hv. apply G_ret, K. cbn. strip. now rewrite Hy, Hz, Hv.
  - words. kinds. rewrite <- app_assoc. cbn [app edge] in *. apply (IHe a ltac:(len)); auto; try discriminate.
    { cbn [hdk]. hd. apply Nat.leb_le. assumption. }
    intros m y Hy. destruct m as [|m]; [exact I|]. cbn [infix_loop]. apply G_bind, G_kind; [discriminate|]. cbn [hdk]. hd. change (next_precedence KLBrack) with 12.
    match goal with H : (l <? _) = true |- _ => rewrite H end. cbn [negb]. apply G_bind, G_next; [live|]. apply G_bind. destruct m as [|m]; [exact I|].
    cbn [parse_infix]. hd. rewrite <- app_assoc. cbn [app]. eapply G_then; [apply (claim_end i); [apply IHe; len|eassumption|assumption|live|cbn [hdk]; hd; reflexivity]|].
    intros z Hz. apply G_bind, G_need; [assumption|live|]. apply G_ret, K. cbn. strip. now rewrite Hy, Hz.
  - words. kinds. rewrite <- app_assoc. cbn [app edge] in *. apply (IHe f ltac:(len)); auto; try discriminate.
    { cbn [hdk]. hd. apply Nat.leb_le. assumption. }
    intros m y Hy. destruct m as [|m]; [exact I|]. cbn [infix_loop]. apply G_bind, G_kind; [discriminate|]. cbn [hdk]. hd. change (next_precedence KLParen) with 13.
    match goal with H : (l <? _) = true |- _ => rewrite H end. cbn [negb]. apply G_bind, G_next; [live|]. apply G_bind. destruct m as [|m]; [exact I|].
    cbn [parse_infix]. hd. unfold parse_call. rewrite <- app_assoc. cbn [app]. eapply G_then; [apply (list_claim KRParen args); [now left| |assumption|eassumption|assumption|exact Hr]|].
    { intros z Hz. apply IHe. pose proof (show_in show z args Hz). len. }
    intros z Hz. apply G_ret, K. cbn. strip. now rewrite Hy, Hz.
  - apply words_app in Hw as (wf & w1 & -> & Wf & Hw). apply words_app in Hw as (wt & w2 & -> & Wt & Hw). unfold show_tys in Wt. words. kinds. rewrite <- !app_assoc. cbn [app edge] in *.
    apply (IHe f ltac:(len)); auto; try discriminate.
    { cbn [hdk]. hd. apply Nat.leb_le. assumption. }
    intros m y Hy. destruct m as [|m]; [exact I|]. cbn [infix_loop]. apply G_bind, G_kind; [discriminate|]. cbn [hdk]. hd. change (next_precedence KLGmet) with 13.
    match goal with H : (l <? _) = true |- _ => rewrite H end. cbn [negb]. apply G_bind, G_next; [live|]. apply G_bind. destruct m as [|m]; [exact I|].
    cbn [parse_infix]. hd. rewrite <- ?app_assoc. cbn [app]. eapply G_then; [apply (ty_list KRGmet ts); [now right|intros; apply any_ty|eassumption|assumption|discriminate]|].
    intros v Hv. apply G_bind, G_need; [assumption|live|]. unfold parse_call. rewrite <- ?app_assoc. cbn [app].
    eapply G_then; [apply (list_claim KRParen args); [now left| |assumption|eassumption|assumption|exact Hr]|].
    { intros z Hz. apply IHe. pose proof (show_in show z args Hz). len. }
    intros z Hz. apply G_ret, K. cbn. strip. now rewrite Hy, Hz, Hv.
  - destruct n as [|n]; [exact I|]. words. kinds. cbn [app parse_expr]. apply G_bind, G_next; [live|]. hd. apply G_bind, G_bind. rewrite <- app_assoc. cbn [app].
    eapply G_mono; [|apply (list_claim KRBrack es); [now right| |assumption|eassumption|assumption|exact Hr]].
    + intros z s [-> Hz]. apply G_ret, K. cbn. strip. now rewrite Hz.
    + intros z Hz. apply IHe. pose proof (show_in show z es Hz). len.
  - destruct n as [|n]; [exact I|]. words. kinds. cbn [app parse_expr]. apply G_bind, G_next; [live|]. hd. apply G_bind, G_bind. apply G_need; [assumption|live|].
    rewrite <- app_assoc. cbn [app]. eapply G_then; [apply (any_ty t); [eassumption|discriminate|apply ty_ends_close; cbn [hdk]; hd; reflexivity]|].
    intros z Hz. apply G_bind, G_need; [assumption|exact Hr|]. apply G_ret, K, Hz.
  - destruct n as [|n]; [exact I|]. apply words_cons in Hw as (t & w0 & -> & Ht & Hw). apply words_app in Hw as (wt & w1 & -> & Wt & Hw).
    apply words_app in Hw as (wp & w2 & -> & Wp & Hw). apply words_app in Hw as (wo & wb & -> & Wo & Wb). kinds. cbn [app parse_expr]. apply G_bind, G_next; [rewrite <- !app_assoc; live|].
    hd. apply G_bind. destruct n as [|n]; [exact I|]. cbn [parse_fn]. apply G_bind, G_ret. rewrite <- !app_assoc. apply G_bind, G_kind; [live|].
    apply G_bind. apply G_mono with (Q := fun tl s => s = at_ (wp ++ wo ++ wb ++ r) /\ option_map erase tl = option_map node_tys tps).
    2:{ destruct tps as [tp|]; cbn [opt] in Wt.
      - destruct (words_first wt _ Wt) as [_ Ef]; [discriminate|]. rewrite Ef. cbn [first show_tys sym kind_eqb].
        eapply G_then; [apply (tys_claim n tp); [intros; apply any_ty|exact Wt|live]|]. intros y [H1 H2]. apply G_ret. split; [reflexivity|]. cbn. now rewrite H1, H2.
      - apply words_nil in Wt. subst wt. cbn [app]. destruct (words_first wp _ Wp) as [_ Ef]; [discriminate|]. rewrite Ef. cbn. split; reflexivity. }
    intros tl s [-> Htl]. eapply G_then; [apply (params_claim n ps); [exact Wp|live]|]. intros qs Hqs.
    destruct (words_first wb _ Wb) as [Nb Eb]; [destruct b; discriminate|].
    apply G_bind, G_is; [live|]. apply G_bind. apply G_mono with (Q := fun y s => s = at_ (wb ++ r) /\ option_map erase y = option_map node_ty o).
    2:{ destruct o as [t1|]; cbn [opt] in Wo.
      - destruct (show_ty_first t1) as [F1 F2]. destruct (words_first wo _ Wo F1) as [_ Ef]. rewrite Ef.
        assert (E : in_kinds (first (show_ty t1)) [KFn; KLBrack; KIdentifier] = true).
        { destruct t1 as [y [ly|]|py ry|y]; reflexivity. }
        rewrite E. eapply G_then; [apply (any_ty t1); [exact Wo|live|]|].
        + apply ty_ends_close. rewrite Eb. destruct b; reflexivity.
        + intros y Hy. apply G_ret. split; [reflexivity|]. cbn. now rewrite Hy.
      - apply words_nil in Wo. subst wo. cbn [app]. rewrite Eb. destruct b; cbn; split; reflexivity. }
    change (fits_body true true b = true) in Hf. intros y s [-> Hy]. apply G_bind, G_kind; [live|]. apply body_claim with (b := b) (anon := true) (w := wb); auto.
    + len.
    + intros ns Hns. apply K. cbn. strip. unfold fn_node. now rewrite Htl, Hqs, Hy, Hns.
Qed.

Hypothesis IHe1 : forall e, List.length (show e) <= S N -> claim e.
Lemma branch_claim : forall b, List.length (show_branch b) <= N -> forall n w r, map look w = show_branch b -> fits_branch true true b = true -> r <> [] ->
  in_kinds (hdk r) [KElseIf; KElse] = false -> G (parse_else n) (at_ (w ++ r)) (res (fun x => option_map erase x = node_branch b) r).
Proof.
  fix IH 1. intros [|c l b|l] L n w r Hw Hf Hr He; (destruct n as [|n]; [exact I|]); cbn [parse_else].
  - cbn in Hw. words. cbn [app]. apply G_bind, G_is; [exact Hr|]. cbn in He. apply orb_false_iff in He as [He1 He2]. apply orb_false_iff in He2 as [He2 _]. cbn. rewrite He1. cbn.
    apply G_bind, G_is; [exact Hr|]. cbn. rewrite He2. cbn. split; reflexivity.
  - cbn [show_branch] in Hw, L. change (fits true true 0 c && if_ true (ends_all stmt_ends show_stmt l KRBrace) && forallb (fits_stmt true true) l && fits_branch true true b = true) in Hf. split_and.
    assert (Hb : fits_block true true l = true) by (apply andb_true_iff; now split).
    apply words_cons in Hw as (t & w0 & -> & Ht & Hw). apply words_app in Hw as (wc & w1 & -> & Wc & Hw).
    replace (sym KLBrace :: flat_map show_stmt l ++ sym KRBrace :: show_branch b) with (show_block l ++ show_branch b) in Hw by (unfold show_block; cbn; now rewrite <- app_assoc).
    apply words_app in Hw as (wl & wb & -> & Wl & Wb). kinds. cbn [app]. apply G_bind, G_is; [discriminate|]. cbn [hdk]. hd. cbn [in_kinds existsb kind_eqb orb].
    apply G_bind, G_need; [assumption|rewrite <- !app_assoc; live|]. rewrite <- !app_assoc.
    destruct (words_first wl _ Wl) as [Nl El]; [discriminate|].
    eapply G_then; [apply (claim_end c); [apply IHe; len|exact Wc|assumption|live|rewrite El; reflexivity]|]. intros y Hy.
    eapply G_then; [apply (block_claim l); [|assumption|exact Wl|live]|].
    { intros s Hs. apply IHs. pose proof (flat_in show_stmt s l Hs). len. }
    intros ns Hns. eapply G_then; [apply (IH b); [len|exact Wb|assumption|exact Hr|exact He]|]. intros z Hz. apply G_ret. split; [reflexivity|].
    cbn. strip. now rewrite Hy, Hns, Hz.
  - cbn [show_branch] in Hw, L. change (fits_block true true l = true) in Hf.
    apply words_cons in Hw as (t & w0 & -> & Ht & Hw). change (map look w0 = show_block l) in Hw. kinds. cbn [app].
    apply G_bind, G_is; [discriminate|]. cbn [hdk]. hd. cbn [in_kinds existsb kind_eqb orb]. apply G_bind, G_is; [discriminate|]. cbn [hdk]. hd. cbn [in_kinds existsb kind_eqb orb].
    apply G_bind, G_need; [assumption|live|].
    eapply G_then; [apply (block_claim l); [|assumption|exact Hw|live]|].
    { intros s Hs. apply IHs. pose proof (flat_in show_stmt s l Hs). len. }
    intros ns Hns. apply G_ret. split; [reflexivity|]. cbn. strip. now rewrite Hns.
Qed.
Lemma ids_claim n ids w t r : map look w = commas (map (fun i => [(KIdentifier, i)]) ids) -> tk_kind t = KRParen -> r <> [] ->
  G (list_until n KRParen (t <- need KIdentifier ;; ret (leaf OpIdentifier t))) (at_ (w ++ t :: r)) (res (fun ns => map erase ns = map (fun i => mk OpIdentifier (KIdentifier, i)) ids) r).
Proof.
  intros Hw Ht Hr. apply (G_list _ (fun i => [(KIdentifier, i)]) (fun i => mk OpIdentifier (KIdentifier, i))); auto.
  - discriminate.
  - intros i _. split; discriminate.
  - intros i _. split; intros u v Hu Hv Hk; words; kinds; cbn [app]; (apply G_bind, G_need; [assumption|exact Hv|]); apply G_ret; (split; [reflexivity|]); cbn; now strip.
Qed.
Lemma case_claim c : List.length (show_case c) <= N -> fits_block true true (snd c) = true -> forall n w r, map look w = show_case c -> r <> [] -> hdk r = KRBrace \/ hdk r = KCase ->
  G (parse_case n) (at_ (w ++ r)) (res (fun x => erase x = node_case c) r).
Proof.
  intros L Hf n w r Hw Hr He. destruct c as [[x ids] l]. unfold show_case, show_case_head in Hw, L. cbn [fst snd] in *. destruct n as [|n]; [exact I|]. cbn [parse_case].
  apply words_app in Hw as (w0 & wl & -> & Hw & Wl). words. kinds. rewrite <- app_assoc. cbn [app]. apply G_bind, G_need; [assumption|live|].
  apply G_bind, G_need; [assumption|live|]. unfold parse_identifiers, paren_list. apply G_bind, G_bind, G_need; [assumption|live|].
  rewrite <- app_assoc. cbn [app]. eapply G_mono; [|apply ids_claim; [eassumption|assumption|discriminate]]. intros ns s [-> Hns].
  apply G_bind, G_need; [assumption|live|]. eapply G_then; [apply (stmts_claim (hdk r) l); auto|].
  - destruct He as [->| ->]; cbn; auto.
  - intros k Hk. unfold in_kinds in *. cbn in *. now destruct (kind_eqb k KRBrace), (kind_eqb k KCase).
  - intros s Hs. apply IHs. pose proof (flat_in show_stmt s l Hs). len.
  - intros ms Hms. apply G_ret. split; [reflexivity|]. cbn. strip. rewrite Hms. unfold node_case. cbn. f_equal. exact Hns.
Qed.
Lemma stmt_begins {A} k (p1 p2 p3 p4 p5 x y : A) : begins k = true ->
  match k with KReturn => p1 | KWhile => p2 | KFor => p3 | KIf => p4 | KMatch => p5 | _ => if is_expr_start k then x else y end = x.
Proof. destruct k; try discriminate; reflexivity. Qed.
Lemma not_assign {A} k (p1 p2 x : A) : in_kinds k [KAs; KDas] = false -> match k with KAs => p1 | KDas => p2 | _ => x end = x.
Proof. destruct k; try discriminate; reflexivity. Qed.
Lemma stmt_step s : List.length (show_stmt s) <= S N -> stmt_claim s.
Proof.
  intros L n w r Hw Hf Hr He. destruct n as [|n]; [exact I|]. cbn [parse_statement].
  destruct s as [[e|]|c l|x e to l|c l b|e cs|a e|a e|e].
  - cbn [show_stmt] in Hw, L. change (begins (first (show e)) && fits true true 0 e = true) in Hf. split_and. words. kinds. cbn [app].
    cbn [stmt_ends] in He. apply negb_true_iff in He. apply G_bind, G_kind; [discriminate|]. cbn [hdk]. hd. apply G_bind, G_need; [assumption|live|]. apply G_bind, G_kind; [live|].
    match goal with H : map look ?u = show e |- _ => destruct (words_first u _ H (proj1 (show_first e))) as [_ Ef] end. rewrite Ef. change (is_expr_start (first (show e))) with (is_expr_start (first (show e))).
    assert (E : is_expr_start (first (show e)) = true) by (destruct (first (show e)); try reflexivity; discriminate). rewrite E.
    apply G_bind. eapply G_then; [apply (claim_end e); [apply IHe1; len|eassumption|assumption|exact Hr|now apply continues_prec]|]. intros y Hy. apply G_ret, G_ret. split; [reflexivity|].
    cbn. strip. now rewrite Hy.
  - cbn [show_stmt] in Hw, L. words. kinds. cbn [app]. cbn [stmt_ends] in He. apply negb_true_iff in He. apply G_bind, G_kind; [discriminate|]. cbn [hdk]. hd.
    apply G_bind, G_need; [assumption|exact Hr|]. apply G_bind, G_kind; [exact Hr|].
    assert (E : is_expr_start (hdk r) = false) by (destruct (hdk r); try reflexivity; discriminate). rewrite E.
    apply G_bind, G_ret, G_ret. split; [reflexivity|]. cbn. strip. reflexivity.
  - cbn [show_stmt] in Hw, L. change (fits true true 0 c && if_ true (ends_all stmt_ends show_stmt l KRBrace) && forallb (fits_stmt true true) l = true) in Hf. split_and.
    assert (Hb : fits_block true true l = true) by (apply andb_true_iff; now split).
    apply words_cons in Hw as (t & w0 & -> & Ht & Hw). apply words_app in Hw as (wc & wl & -> & Wc & Wl). change (map look wl = show_block l) in Wl. kinds. cbn [app].
    apply G_bind, G_kind; [discriminate|]. cbn [hdk]. hd. apply G_bind, G_need; [assumption|live|]. rewrite <- app_assoc.
    destruct (words_first wl _ Wl) as [Nl El]; [discriminate|].
    eapply G_then; [apply (claim_end c); [apply IHe; len|exact Wc|assumption|live|rewrite El; reflexivity]|]. intros y Hy.
    eapply G_then; [apply (block_claim l); [|assumption|exact Wl|live]|].
    { intros s Hs. apply IHs. pose proof (flat_in show_stmt s l Hs). len. }
    intros ns Hns. apply G_ret. split; [reflexivity|]. cbn. strip. now rewrite Hy, Hns.
  - cbn [show_stmt] in Hw, L. change (fits true true 0 e && match to with Some e2 => fits true true 0 e2 | None => true end && if_ true (ends_all stmt_ends show_stmt l KRBrace) && forallb (fits_stmt true true) l = true) in Hf. split_and.
    assert (Hb : fits_block true true l = true) by (apply andb_true_iff; now split).
    apply words_cons in Hw as (t & w0 & -> & Ht & Hw). apply words_cons in Hw as (tx & w1 & -> & Hx & Hw). apply words_cons in Hw as (ti & w2 & -> & Hi & Hw).
    apply words_app in Hw as (wc & w3 & -> & Wc & Hw). apply words_app in Hw as (wt & wl & -> & Wt & Wl). change (map look wl = show_block l) in Wl. kinds. cbn [app].
    apply G_bind, G_kind; [discriminate|]. cbn [hdk]. hd. apply G_bind, G_need; [assumption|live|]. apply G_bind, G_need; [assumption|live|]. apply G_bind, G_need; [assumption|rewrite <- !app_assoc; live|].
    rewrite <- !app_assoc. destruct (words_first wl _ Wl) as [Nl El]; [discriminate|].
    eapply G_then; [apply (claim_end e); [apply IHe; len|exact Wc|assumption|live|]|].
    { destruct to; [words; kinds; cbn [app hdk]; hd; reflexivity|]. apply words_nil in Wt. subst wt. cbn [app]. rewrite El. reflexivity. }
    intros y Hy. apply G_bind, G_is; [live|].
    apply G_bind. apply G_mono with (Q := fun z s => s = at_ (wl ++ r) /\
      erase z = match to with Some e2 => Node no_attrs OpRange (bare (sym KDotDot)) (Some (node_of e)) (Some (node_of e2)) [] [] | None => node_of e end).
    2:{ destruct to as [e2|].
      - words. kinds. cbn [app hdk]. hd. cbn [in_kinds existsb kind_eqb orb]. apply G_bind, G_next; [live|].
        eapply G_then; [apply (claim_end e2); [apply IHe; len|eassumption|assumption|live|rewrite El; reflexivity]|]. intros z Hz. apply G_ret. split; [reflexivity|]. cbn. strip. now rewrite Hy, Hz.
      - apply words_nil in Wt. subst wt. cbn [app]. rewrite El. cbn. split; [reflexivity|exact Hy]. }
    intros z s [-> Hz]. eapply G_then; [apply (block_claim l); [|assumption|exact Wl|live]|].
    { intros s Hs. apply IHs. pose proof (flat_in show_stmt s l Hs). destruct to; len. }
    intros ns Hns. apply G_ret. split; [reflexivity|]. cbn. strip. now rewrite Hz, Hns.
  - cbn [show_stmt] in Hw, L. change (fits true true 0 c && if_ true (ends_all stmt_ends show_stmt l KRBrace) && forallb (fits_stmt true true) l && fits_branch true true b = true) in Hf. split_and.
    assert (Hb : fits_block true true l = true) by (apply andb_true_iff; now split).
    replace (sym KIf :: show c ++ sym KLBrace :: flat_map show_stmt l ++ sym KRBrace :: show_branch b) with (sym KIf :: show c ++ show_block l ++ show_branch b) in Hw
      by (unfold show_block; cbn; now rewrite <- app_assoc).
    apply words_cons in Hw as (t & w0 & -> & Ht & Hw). apply words_app in Hw as (wc & w1 & -> & Wc & Hw). apply words_app in Hw as (wl & wb & -> & Wl & Wb). kinds. cbn [app].
    apply G_bind, G_kind; [discriminate|]. cbn [hdk]. hd. apply G_bind, G_need; [assumption|rewrite <- !app_assoc; live|]. rewrite <- !app_assoc.
    destruct (words_first wl _ Wl) as [Nl El]; [discriminate|].
    eapply G_then; [apply (claim_end c); [apply IHe; len|exact Wc|assumption|live|rewrite El; reflexivity]|]. intros y Hy.
    eapply G_then; [apply (block_claim l); [|assumption|exact Wl|live]|].
    { intros s Hs. apply IHs. pose proof (flat_in show_stmt s l Hs). len. }
    cbn [stmt_ends] in He. apply negb_true_iff in He.
    intros ns Hns. eapply G_then; [apply (branch_claim b); [len|exact Wb|assumption|exact Hr|exact He]|]. intros z Hz. apply G_ret. split; [reflexivity|]. cbn. strip. now rewrite Hy, Hns, Hz.
  - cbn [show_stmt] in Hw, L. change (fits true true 0 e && forallb (fun k => fits_block true true (snd k)) cs = true) in Hf. split_and.
    change (map look w = sym KMatch :: show e ++ sym KLBrace :: flat_map show_case cs ++ [sym KRBrace]) in Hw.
    change (List.length (sym KMatch :: show e ++ sym KLBrace :: flat_map show_case cs ++ [sym KRBrace]) <= S N) in L.
    words. kinds. cbn [app]. apply G_bind, G_kind; [discriminate|]. cbn [hdk]. hd. apply G_bind, G_need; [assumption|live|]. rewrite <- !app_assoc. cbn [app].
    eapply G_then; [apply (claim_end e); [apply IHe; len|eassumption|assumption|discriminate|cbn [hdk]; hd; reflexivity]|]. intros y Hy.
    apply G_bind, G_need; [assumption|rewrite <- ?app_assoc; live|]. rewrite <- ?app_assoc. cbn [app].
    eapply G_then.
    + apply (G_many (parse_case n) show_case node_case (fun _ k => in_kinds k [KRBrace; KCase]) [KRBrace] KRBrace); [now left| | | |eassumption|discriminate|cbn [hdk]; assumption].
      * intros c _. split; [discriminate|reflexivity].
      * intros c Hc k Hk u v Hu Hv Hkv. assert (Hl : List.length (show_case c) <= N) by (pose proof (flat_in show_case c cs Hc); len). apply (case_claim c); auto.
        -- match goal with H : forallb _ cs = true |- _ => rewrite forallb_forall in H; now apply H end.
        -- rewrite Hkv. cbn in Hk. destruct (kind_eqb k KRBrace) eqn:E1; [left; now apply kind_eqb_eq|]. destruct (kind_eqb k KCase) eqn:E2; [right; now apply kind_eqb_eq|discriminate].
      * clear. induction cs as [|c [|c2 cs] IH]; [reflexivity|reflexivity|]. cbn [ends_all]. apply andb_true_iff. split; [reflexivity|exact IH].
    + intros ns Hns. apply G_bind, G_need; [assumption|exact Hr|]. apply G_ret. split; [reflexivity|]. cbn. strip. rewrite Hy, Hns. reflexivity.
  - cbn [show_stmt] in Hw, L. change (begins (first (show a)) && fits true true 0 a && fits true true 0 e = true) in Hf. split_and. words. kinds. cbn [stmt_ends] in He. apply negb_true_iff in He.
    rewrite <- app_assoc. cbn [app]. apply G_bind, G_kind; [live|]. match goal with H : map look ?u = show a |- _ => destruct (words_first u _ H (proj1 (show_first a))) as [_ Ef]; rewrite Ef end.
    match goal with H : begins _ = true |- _ => rewrite (stmt_begins _ _ _ _ _ _ _ _ H) end.
    (eapply G_then; [apply (claim_end a); [apply IHe; pose proof (proj1 (show_first e)); destruct (show e); [congruence|len]|eassumption|assumption|discriminate|cbn [hdk]; hd; reflexivity]|]; intros y Hy;
     apply G_bind, G_kind; [discriminate|]; cbn [hdk]; hd; apply G_bind, G_need; [assumption|live|];
     eapply G_then; [apply (claim_end e); [apply IHe; len|eassumption|assumption|exact Hr|now apply continues_prec]|]; intros z Hz; apply G_ret; split; [reflexivity|]; cbn; strip; now rewrite Hy, Hz).
  - cbn [show_stmt] in Hw, L. change (begins (first (show a)) && fits true true 0 a && fits true true 0 e = true) in Hf. split_and. words. kinds. cbn [stmt_ends] in He. apply negb_true_iff in He.
    rewrite <- app_assoc. cbn [app]. apply G_bind, G_kind; [live|]. match goal with H : map look ?u = show a |- _ => destruct (words_first u _ H (proj1 (show_first a))) as [_ Ef]; rewrite Ef end.
    match goal with H : begins _ = true |- _ => rewrite (stmt_begins _ _ _ _ _ _ _ _ H) end.
    (eapply G_then; [apply (claim_end a); [apply IHe; pose proof (proj1 (show_first e)); destruct (show e); [congruence|len]|eassumption|assumption|discriminate|cbn [hdk]; hd; reflexivity]|]; intros y Hy;
     apply G_bind, G_kind; [discriminate|]; cbn [hdk]; hd; apply G_bind, G_need; [assumption|live|];
     eapply G_then; [apply (claim_end e); [apply IHe; len|eassumption|assumption|exact Hr|now apply continues_prec]|]; intros z Hz; apply G_ret; split; [reflexivity|]; cbn; strip; now rewrite Hy, Hz).
  - cbn [show_stmt] in Hw, L. change (begins (first (show e)) && fits true true 0 e = true) in Hf. split_and. cbn [stmt_ends] in He. apply negb_true_iff, orb_false_iff in He as [He1 He2].
    apply G_bind, G_kind; [live|]. destruct (words_first w _ Hw (proj1 (show_first e))) as [_ Ef]. rewrite Ef.
    match goal with H : begins _ = true |- _ => rewrite (stmt_begins _ _ _ _ _ _ _ _ H) end.
    (eapply G_then; [apply (claim_end e); [apply IHe1; exact L|eassumption|assumption|exact Hr|now apply continues_prec]|]; intros y Hy;
     apply G_bind, G_kind; [exact Hr|]; rewrite (not_assign _ _ _ _ He2); apply G_ret; split; [reflexivity|exact Hy]).
Qed.
End Step.

Lemma both_claims : forall N, (forall e, List.length (show e) <= N -> claim e) /\ (forall s, List.length (show_stmt s) <= N -> stmt_claim s).
Proof.
  induction N as [|N [IHe IHs]].
  - split; [intros e L; exfalso|intros s L].
    + destruct (show_first e) as [H _]. destruct (show e); [congruence|cbn in L; lia].
    + intros n w r Hw Hf. exfalso. destruct (show_stmt_first s Hf) as [H _]. destruct (show_stmt s); [congruence|cbn in L; lia].
  - assert (H : forall e, List.length (show e) <= S N -> claim e) by (apply expr_step; assumption). split; [exact H|]. apply stmt_step; assumption.
Qed.
Lemma any_expr e : claim e.
Proof. exact (proj1 (both_claims _) e (le_n _)). Qed.
Lemma any_stmt s : stmt_claim s.
Proof. exact (proj2 (both_claims _) s (le_n _)). Qed.
