(** What is written is parsed back: declarations and programs; where brackets go. *)
From Coq Require Import ZArith List Bool Arith Lia.
From Verif Require Import LexModel ParseModel ParseSpec ParseTotal ParseShow ParseExpr.
Import ListNotations.
Open Scope nat_scope.

Section Names.
Variable attr_name : list Z -> option bool.

(* ---------------------------------------------------------------------- declarations *)

Lemma ids_tokens l : forall n w r, l <> [] -> map look w = commas (map (fun x => [(KIdentifier, x)]) l) -> r <> [] -> hdk r = KRBrack ->
  G (comma_sep n (need KIdentifier)) (at_ (w ++ r)) (res (fun ts => map tk_val ts = l) r).
Proof.
  induction l as [|x l IH]; intros n w r Hl Hw Hr Hk; [congruence|]. destruct n as [|n]; [exact I|]. cbn [comma_sep].
  assert (V : forall t y, look t = (KIdentifier, y) -> tk_val t = y).
  { intros t y H. unfold look in H. destruct (tk_kind t); try discriminate. now injection H. }
  destruct l as [|y l].
  - cbn in Hw. words. kinds. cbn [app]. apply G_bind, G_need; [assumption|exact Hr|]. apply G_bind, G_matches; [exact Hr|congruence|]. intros _. apply G_ret. split; [reflexivity|].
    cbn. f_equal. now apply V.
  - change (commas (map (fun x => [(KIdentifier, x)]) (x :: y :: l))) with ((KIdentifier, x) :: sym KComma :: commas (map (fun x => [(KIdentifier, x)]) (y :: l))) in Hw. words. kinds.
    cbn [app]. apply G_bind, G_need; [assumption|discriminate|]. apply G_bind, G_matches; [discriminate| |].
    + intros _. do 2 eexists. split; [reflexivity|]. split; [live|]. eapply G_then; [apply IH; [discriminate|eassumption|exact Hr|exact Hk]|]. intros ts Hts. apply G_ret. split; [reflexivity|].
      cbn. rewrite Hts. f_equal. now apply V.
    + intros E. exfalso. now apply E.
Qed.
Lemma attrs_fold l : forall a, fold_left (fun a x => attr_add attr_name a x) l a = (fst a || fst (attrs_of attr_name l), snd a || snd (attrs_of attr_name l)).
Proof.
  induction l as [|x l IH]; intros [a b]; cbn [fold_left]; [cbn; now rewrite !orb_false_r|]. rewrite IH. unfold attr_add, attrs_of. cbn.
  destruct (attr_name x) as [[]|]; cbn; now rewrite ?orb_true_r.
Qed.
Lemma attrs_claim n l w r : map look w = show_attrs l -> r <> [] -> hdk r <> KHash ->
  G (parse_attributes attr_name n) (at_ (w ++ r)) (res (fun a => a = attrs_of attr_name l) r).
Proof.
  intros Hw Hr Hk. unfold parse_attributes. apply G_bind, G_is; [live|]. destruct l as [|x l].
  - cbn in Hw. words. cbn [app]. destruct (kind_eqb (hdk r) KHash) eqn:E; [now apply kind_eqb_eq in E|]. unfold in_kinds. cbn. rewrite E. cbn. split; reflexivity.
  - cbn [show_attrs] in Hw. words. kinds. cbn [app hdk]. hd. cbn [in_kinds existsb kind_eqb orb]. apply G_bind, G_need; [assumption|live|]. apply G_bind, G_need; [assumption|live|].
    apply G_bind, G_is; [live|]. rewrite <- app_assoc. cbn [app]. match goal with H : map look ?u = commas ?c |- _ => destruct (words_first u _ H) as [_ Ef]; [destruct l; discriminate|] end.
    rewrite Ef. replace (first (commas (map (fun x0 => [(KIdentifier, x0)]) (x :: l)))) with KIdentifier by (destruct l; reflexivity). cbn [in_kinds existsb kind_eqb orb].
    eapply G_then; [apply (ids_tokens (x :: l)); [discriminate|eassumption|discriminate|cbn [hdk]; assumption]|]. intros ts Hts. apply G_bind, G_need; [assumption|exact Hr|].
    apply G_ret. split; [reflexivity|]. rewrite <- Hts.
    transitivity (fold_left (attr_add attr_name) (map tk_val ts) no_attrs); [|rewrite attrs_fold; now destruct (attrs_of attr_name (map tk_val ts))].
    generalize no_attrs. induction ts as [|t0 ts IH]; intros a0; [reflexivity|]. cbn [fold_left map]. clear Hts.
    clear IH. revert a0 t0. induction ts as [|t1 ts IH]; intros a0 t0; [reflexivity|]. cbn. apply (IH (attr_add attr_name a0 (tk_val t0)) t1).
Qed.
Definition starts (k : kind) : bool := in_kinds k [KEOF; KHash; KFn; KStruct; KEnum].
Lemma fn_claim n attrs x tps ps o b t w r : map look w = (KIdentifier, x) :: opt show_tys tps ++ show_params ps ++ opt show_ty o ++ opt show_body b ->
  match b with Some b => fits_body true true b = true | None => True end -> r <> [] -> starts (hdk r) = true ->
  match b, o with None, Some t => ty_ends t (hdk r) = true | None, None => in_kinds (hdk r) [KFn; KIdentifier; KLBrack] = false | _, _ => True end ->
  G (parse_fn n attrs t false) (at_ (w ++ r)) (res (fun y => erase y = match b with Some b => fn_node attrs (block_op b) (KIdentifier, x) tps ps o (nodes_body b)
    | None => fn_node attrs OpExternFn (KIdentifier, x) tps ps o [] end) r).
Proof.
  intros Hw Hf Hr Hk He. apply words_cons in Hw as (tx & w0 & -> & Ht & Hw). apply words_app in Hw as (wt & w1 & -> & Wt & Hw).
  apply words_app in Hw as (wp & w2 & -> & Wp & Hw). apply words_app in Hw as (wo & wb & -> & Wo & Wb). kinds. cbn [app].
  assert (Hb : hdk (wb ++ r) = match b with Some b => first (show_body b) | None => hdk r end).
  { destruct b as [b|]; [destruct (words_first wb _ Wb) as [_ Ef]; [destruct b; discriminate|apply Ef]|]. apply words_nil in Wb. now subst wb. }
  destruct n as [|n]; [exact I|]. cbn [parse_fn]. apply G_bind, G_need; [assumption|rewrite <- !app_assoc; live|]. rewrite <- !app_assoc. apply G_bind, G_kind; [live|].
  apply G_bind. apply G_mono with (Q := fun tl s => s = at_ (wp ++ wo ++ wb ++ r) /\ option_map erase tl = option_map node_tys tps).
  2:{ destruct tps as [tp|]; cbn [opt] in Wt.
    - destruct (words_first wt _ Wt) as [_ Ef]; [discriminate|]. rewrite Ef. cbn [first show_tys sym kind_eqb].
      eapply G_then; [apply (tys_claim n tp); [intros; apply any_ty|exact Wt|live]|]. intros y [H1 H2]. apply G_ret. split; [reflexivity|]. cbn. now rewrite H1, H2.
    - apply words_nil in Wt. subst wt. cbn [app]. destruct (words_first wp _ Wp) as [_ Ef]; [discriminate|]. rewrite Ef. cbn. split; reflexivity. }
  intros tl s [-> Htl]. eapply G_then; [apply (params_claim n ps); [exact Wp|live]|]. intros qs Hqs.
  apply G_bind, G_is; [live|]. apply G_bind. apply G_mono with (Q := fun y s => s = at_ (wb ++ r) /\ option_map erase y = option_map node_ty o).
  2:{ destruct o as [t1|]; cbn [opt] in Wo.
    - destruct (show_ty_first t1) as [F1 F2]. destruct (words_first wo _ Wo F1) as [_ Ef]. rewrite Ef.
      assert (E : in_kinds (first (show_ty t1)) [KFn; KLBrack; KIdentifier] = true).
      { destruct t1 as [y [ly|]|py ry|y]; reflexivity. }
      rewrite E. eapply G_then; [apply (any_ty t1); [exact Wo|live|]|].
      + rewrite Hb. destruct b as [b|]; [apply ty_ends_close; destruct b; reflexivity|exact He].
      + intros y Hy. apply G_ret. split; [reflexivity|]. cbn. now rewrite Hy.
    - apply words_nil in Wo. subst wo. cbn [app]. rewrite Hb.
      assert (E : in_kinds (match b with Some b => first (show_body b) | None => hdk r end) [KFn; KLBrack; KIdentifier] = false).
      { destruct b as [[]|]; try reflexivity. unfold in_kinds in *. cbn in *. now destruct (kind_eqb (hdk r) KFn), (kind_eqb (hdk r) KLBrack), (kind_eqb (hdk r) KIdentifier). }
      rewrite E. apply G_ret. split; reflexivity. }
  intros y s [-> Hy]. apply G_bind, G_kind; [live|]. destruct b as [b|].
  - eapply body_claim with (N := List.length (show_body b)) (b := b) (anon := false) (w := wb); auto.
    + intros; apply any_expr.
    + intros; apply any_stmt.
    + assert (E : next_precedence (hdk r) = 0); [|rewrite E; lia]. unfold starts, in_kinds in Hk. apply existsb_exists in Hk as (k & Hin & E). apply kind_eqb_eq in E. rewrite E. cbn in Hin.
      repeat (destruct Hin as [<-|Hin]; [reflexivity|]). destruct Hin.
    + intros ns Hns. split; [reflexivity|]. cbn. strip. unfold fn_node. now rewrite Htl, Hqs, Hy, Hns.
  - cbn [opt] in Wb. apply words_nil in Wb. subst wb. cbn [app]. assert (E : forall A (p q x : A), match hdk r with KLBrace => p | KAs => q | _ => x end = x).
    { clear - Hk. unfold starts, in_kinds in Hk. apply existsb_exists in Hk as (k & Hin & E). apply kind_eqb_eq in E. rewrite E. cbn in Hin.
      repeat (destruct Hin as [<-|Hin]; [reflexivity|]). destruct Hin. }
    rewrite E. apply G_ret. split; [reflexivity|]. cbn. strip. unfold fn_node. now rewrite Htl, Hqs, Hy.
Qed.
Lemma tparams_claim n tps w r : map look w = opt show_tys tps -> r <> [] -> hdk r <> KLGmet ->
  G (type_params n) (at_ (w ++ r)) (res (fun l => map erase l = tys tps) r).
Proof.
  intros Hw Hr Hk. unfold type_params. apply G_bind, G_is; [live|]. destruct tps as [l|]; cbn [opt] in Hw.
  - destruct (words_first w _ Hw) as [_ Ef]; [discriminate|]. rewrite Ef. cbn [first show_tys sym in_kinds existsb kind_eqb orb].
    eapply G_then; [apply (tys_claim n l); [intros; apply any_ty|exact Hw|exact Hr]|]. intros y [H1 _]. apply G_ret. now split.
  - apply words_nil in Hw. subst w. cbn [app]. destruct (kind_eqb (hdk r) KLGmet) eqn:E; [now apply kind_eqb_eq in E|]. unfold in_kinds. cbn. rewrite E. cbn. split; reflexivity.
Qed.
Lemma decl_claim d n w r : map look w = show_decl d -> fits_decl true true d = true -> r <> [] -> starts (hdk r) = true -> decl_ends d (hdk r) = true ->
  G (parse_decl attr_name n) (at_ (w ++ r)) (res (fun x => option_map erase x = Some (node_decl attr_name d)) r).
Proof.
  intros Hw Hf Hr Hk He. unfold parse_decl. destruct d as [attrs x tps ps o b|attrs x tps fs|attrs x tps cs]; cbn [show_decl] in Hw;
    (apply words_app in Hw as (wa & w0 & -> & Wa & Hw)); (apply words_cons in Hw as (t & w1 & -> & Ht & Hw)); kinds; rewrite <- app_assoc; cbn [app].
  - eapply G_then; [apply (attrs_claim n attrs); [exact Wa|discriminate|cbn [hdk]; hd; discriminate]|]. intros a ->. apply G_bind, G_kind; [discriminate|]. cbn [hdk]. hd.
    apply G_bind, G_need; [assumption|live|]. eapply G_then; [eapply (fn_claim n (attrs_of attr_name attrs) x tps ps o b); [exact Hw| |exact Hr|exact Hk|]|].
    + destruct b; [exact Hf|exact I].
    + destruct b; [exact I|]. cbn [decl_ends] in He. destruct o; [exact He|]. now apply negb_true_iff.
    + intros y Hy. apply G_ret. split; [reflexivity|]. cbn. rewrite Hy. now destruct b.
  - eapply G_then; [apply (attrs_claim n attrs); [exact Wa|discriminate|cbn [hdk]; hd; discriminate]|]. intros a ->. apply G_bind, G_kind; [discriminate|]. cbn [hdk]. hd.
    apply words_cons in Hw as (tx & w2 & -> & Hx & Hw). apply words_app in Hw as (wt & w3 & -> & Wt & Hw). words. kinds.
    cbn [app]. unfold parse_struct. apply G_bind, G_bind, G_need; [assumption|live|]. apply G_bind, G_need; [assumption|live|]. rewrite <- ?app_assoc. cbn [app].
    eapply G_then; [apply (tparams_claim n tps); [exact Wt|discriminate|cbn [hdk]; hd; discriminate]|]. intros ts Hts. apply G_bind, G_need; [assumption|rewrite <- ?app_assoc; live|].
    rewrite <- ?app_assoc. cbn [app]. eapply G_then.
    + apply (G_many (parse_parameter n) show_param node_param (fun f => ty_ends (snd f)) [KRBrace] KRBrace); [now left| | | |eassumption|discriminate|cbn [hdk]; assumption].
      * intros p _. split; [discriminate|reflexivity].
      * intros p _ k Hp u v Hu Hv Hkv. apply param_claim; auto. now rewrite Hkv.
      * exact Hf.
    + intros ns Hns. apply G_bind, G_need; [assumption|exact Hr|]. apply G_ret. apply G_ret. split; [reflexivity|]. cbn. strip. now rewrite Hns, Hts.
  - eapply G_then; [apply (attrs_claim n attrs); [exact Wa|discriminate|cbn [hdk]; hd; discriminate]|]. intros a ->. apply G_bind, G_kind; [discriminate|]. cbn [hdk]. hd.
    apply words_cons in Hw as (tx & w2 & -> & Hx & Hw). apply words_app in Hw as (wt & w3 & -> & Wt & Hw). words. kinds.
    cbn [app]. unfold parse_enum. apply G_bind, G_bind, G_need; [assumption|live|]. apply G_bind, G_need; [assumption|live|]. rewrite <- ?app_assoc. cbn [app].
    eapply G_then; [apply (tparams_claim n tps); [exact Wt|discriminate|cbn [hdk]; hd; discriminate]|]. intros ts Hts. apply G_bind, G_need; [assumption|rewrite <- ?app_assoc; live|].
    rewrite <- ?app_assoc. cbn [app]. eapply G_then.
    + apply (G_many (parse_cons n tx) (fun c => (KIdentifier, fst c) :: show_params (snd c))
        (fun c => Node no_attrs OpConsFn (bare (KIdentifier, fst c)) (Some (mk OpNamedType (KIdentifier, x))) None [] (map node_param (snd c)))
        (fun _ _ => true) [KRBrace] KRBrace); [now left| | | |eassumption|discriminate|cbn [hdk]; assumption].
      * intros p _. split; [discriminate|reflexivity].
      * intros p _ k _ u v Hu Hv Hkv. apply words_cons in Hu as (tc & u2 & -> & Hc & Hu). kinds. cbn [app]. unfold parse_cons. apply G_bind, G_need; [assumption|live|].
        eapply G_then; [apply (params_claim n (snd p)); [exact Hu|exact Hv]|]. intros qs Hqs. apply G_ret. split; [reflexivity|]. cbn. strip. now rewrite Hqs.
      * clear. induction cs as [|c cs IH]; [reflexivity|]. cbn [ends_all]. exact IH.
    + intros ns Hns. apply G_bind, G_need; [assumption|exact Hr|]. apply G_ret. apply G_ret. split; [reflexivity|]. cbn. strip. now rewrite Hns, Hts.
Qed.

(* --------------------------------------------------------------------------- programs *)

Lemma show_decl_first d : show_decl d <> [] /\ starts (first (show_decl d)) = true /\ first (show_decl d) <> KEOF.
Proof. destruct d as [[|a l] ? ? ? ? ?|[|a l] ? ? ?|[|a l] ? ? ?]; cbn [show_decl show_attrs app first sym]; repeat split; discriminate. Qed.
Lemma loop_claim fuel : forall p n w eof root, map look w = flat_map show_decl p -> tk_kind eof = KEOF -> fits_program true true p = true ->
  match parse_loop attr_name n fuel root (at_ (w ++ [eof])) with
  | Some (l, es) => es = [] /\ exists ns, l = root ++ ns /\ map erase ns = map (node_decl attr_name) p
  | None => True
  end.
Proof.
  induction p as [|d p IH]; intros n w eof root Hw He Hf; (destruct n as [|n]; [exact I|]); cbn [parse_loop].
  - apply words_nil in Hw. subst w. cbn [app]. unfold is, bind, cur_kind, ret, at_. cbn [rest]. rewrite He. cbn [existsb kind_eqb orb]. unfold need. cbn [rest errs discard skip_to]. rewrite He. cbn.
    split; [reflexivity|]. exists []. now rewrite app_nil_r.
  - cbn [flat_map] in Hw. apply words_app in Hw as (wd & wp & -> & Wd & Wp). rewrite <- app_assoc.
    unfold fits_program in Hf. cbn [if_ negb orb ends_all forallb] in Hf. split_and. destruct (show_decl_first d) as (F1 & F2 & F3). destruct (words_first wd _ Wd F1) as [_ Ef].
    assert (E : is [KEOF] (at_ (wd ++ wp ++ [eof])) = Ok false (at_ (wd ++ wp ++ [eof]))).
    { specialize (Ef (wp ++ [eof])). destruct (wd ++ wp ++ [eof]) as [|t0 q] eqn:Eq; [now apply app_eq_nil in Eq as [_ [_ [=]]%app_eq_nil]|]. unfold is, bind, cur_kind, ret, at_. cbn [rest].
      cbn [hdk] in Ef. rewrite Ef. cbn [existsb orb]. rewrite orb_false_r. destruct (kind_eqb (first (show_decl d)) KEOF) eqn:Ek; [now apply kind_eqb_eq in Ek|reflexivity]. }
    rewrite E. assert (Hn : hdk (wp ++ [eof]) = match p with [] => KEOF | y :: _ => first (show_decl y) end).
    { destruct p as [|y p]; [apply words_nil in Wp; subst wp; exact He|]. cbn [flat_map] in Wp. apply words_app in Wp as (wy & wz & -> & Wy & _). rewrite <- app_assoc.
      destruct (words_first wy _ Wy (proj1 (show_decl_first y))) as [_ Ey]. apply Ey. }
    assert (K : G (parse_decl attr_name fuel) (at_ (wd ++ wp ++ [eof])) (res (fun x => option_map erase x = Some (node_decl attr_name d)) (wp ++ [eof]))).
    { apply decl_claim; auto; rewrite ?Hn; auto; [apply app_live; discriminate|]. destruct p as [|y p]; [reflexivity|]. apply (show_decl_first y). }
    unfold G, ParseTotal.wp, res in K. destruct (parse_decl attr_name fuel (at_ (wd ++ wp ++ [eof]))) as [o s2|s2| |]; try contradiction; [|exact I].
    destruct K as [-> K]. destruct o as [x|]; [|discriminate]. cbn in K. injection K as K. 
    assert (Hp : fits_program true true p = true) by (apply andb_true_iff; now split).
    specialize (IH n wp eof (root ++ [x]) Wp He Hp). destruct (parse_loop attr_name n fuel (root ++ [x]) (at_ (wp ++ [eof]))) as [[l es]|]; [|exact I].
    destruct IH as [E1 (ns & E2 & E3)]. split; [exact E1|]. exists (x :: ns). rewrite E2, <- app_assoc. split; [reflexivity|]. cbn. now rewrite K, E3.
Qed.
Lemma program_claim p ts fuel : map look ts = show_program p -> fits_program true true p = true -> 4 * List.length ts + 1 <= fuel ->
  exists ns, parse attr_name fuel ts [] = Some (ns, []) /\ map erase ns = map (node_decl attr_name) p.
Proof.
  intros Hw Hf Hl. unfold show_program in Hw. apply words_app in Hw as (w & we & -> & Wp & We). apply words_cons in We as (eof & w0 & -> & He & We). apply words_nil in We. subst w0.
  destruct (parse_total attr_name (w ++ [eof]) []) as [[l es] Hr]; [intros E; now apply app_eq_nil in E|]. specialize (Hr fuel Hl). pose proof (look_kind _ _ _ He) as Hk.
  pose proof (loop_claim fuel p fuel w eof [] Wp Hk Hf) as K. unfold parse in Hr |- *. change (State (w ++ [eof]) [] false) with (at_ (w ++ [eof])) in *. rewrite Hr in *.
  destruct K as [-> (ns & -> & K)]. exists ns. now split.
Qed.
End Names.

(* --------------------------------------------------------------------------- brackets *)

Notation br := (bracket 9).
Notation brs := (bracket_stmt 9).
Definition any_level (e : expr) : bool := match e with Bin _ _ _ | Cond _ _ _ | Index _ _ | Call _ _ | TCall _ _ _ => false | _ => true end.
Lemma edge_level : forall e, is_cond e = false -> level 9 e <= edge (br e).
Proof.
  fix IH 1. intros [x|li|e|u e|o a b|c a b|a i|f args|f ts args|es|t|tps ps r [l|e]] H; cbn [level edge bracket bracket_body]; try lia; try discriminate.
  - unfold wrap. destruct ((level 9 e <? un_prec 9 u) || ((level 9 e =? un_prec 9 u) && negb (is_pre e))) eqn:E; [cbn; destruct u; cbn; lia|].
    apply orb_false_iff in E as [E _]. apply Nat.ltb_ge in E. assert (C : is_cond e = false) by (destruct e; try reflexivity; destruct u; cbn in E; lia). specialize (IH e C). lia.
  - unfold wrap. destruct (level 9 b <=? bin_prec o) eqn:E; [cbn; destruct o; cbn; lia|]. apply Nat.leb_gt in E.
    assert (C : is_cond b = false) by (destruct b; try reflexivity; destruct o; cbn in E; lia). specialize (IH b C). lia.
Qed.
Lemma fits_level c a e l l' : any_level e = true -> fits c a l e = fits c a l' e.
Proof. destruct e; try discriminate; reflexivity. Qed.
Lemma fits_false : forall e a l l', fits false a l e = fits false a l' e.
Proof. fix IH 1. intros [x|li|e|u e|o x y|c x y|x i|f args|f ts args|es|t|tps ps r b] a l l'; cbn [fits if_ negb orb]; try reflexivity; now rewrite (IH _ a l l'). Qed.
Lemma level_pos e : any_level e = true \/ 0 < level 9 e.
Proof. destruct e as [x|li|e|u e|[] a b|c a b|a i|f args|f ts args|es|t|tps ps r b]; cbn; auto; right; lia. Qed.

Definition bracketed (e : expr) : Prop := node_of (br e) = node_of e /\
  forall l, fits false true 0 (br e) = true -> any_level e = true \/ l < level 9 e -> fits true true l (br e) = true.
Definition bracketed_stmt (s : stmt) : Prop := node_stmt (brs s) = node_stmt s /\ (fits_stmt false true (brs s) = true -> fits_stmt true true (brs s) = true).
Lemma bracketed_0 e : bracketed e -> fits false true 0 (br e) = true -> fits true true 0 (br e) = true.
Proof. intros [_ H] Hf. apply H; [exact Hf|]. apply level_pos. Qed.
Lemma bracketed_wrap e b l l0 : bracketed e -> fits false true l0 (wrap b (br e)) = true -> (b = false -> any_level e = true \/ l < level 9 e) -> fits true true l (wrap b (br e)) = true.
Proof.
  intros H Hf Hb. destruct b; cbn [wrap] in *; [now apply bracketed_0|]. apply H; [rewrite (fits_false _ _ 0 l0); exact Hf|]. now apply Hb.
Qed.
Lemma wrap_node b e : node_of (wrap b e) = node_of e.
Proof. destruct b; reflexivity. Qed.
Lemma bracketed_list l : (forall e, In e l -> bracketed e) -> map node_of (map br l) = map node_of l /\
  (forallb (fits false true 0) (map br l) = true -> forallb (fits true true 0) (map br l) = true).
Proof.
  intros H. split; [rewrite map_map; apply map_ext_in; intros e He; apply (H e He)|]. rewrite !forallb_forall. intros K x Hx. specialize (K x Hx).
  apply in_map_iff in Hx as (e & <- & He). apply bracketed_0; auto.
Qed.
Lemma bracketed_block l : (forall s, In s l -> bracketed_stmt s) -> map node_stmt (map brs l) = map node_stmt l /\
  (forallb (fits_stmt false true) (map brs l) = true -> forallb (fits_stmt true true) (map brs l) = true).
Proof.
  intros H. split; [rewrite map_map; apply map_ext_in; intros e He; apply (H e He)|]. rewrite !forallb_forall. intros K x Hx. specialize (K x Hx).
  apply in_map_iff in Hx as (e & <- & He). now apply (H e He).
Qed.
Lemma edge_wrap e b p : (b = false -> p <= level 9 e /\ is_cond e = false) -> p <= 14 -> p <= edge (wrap b (br e)).
Proof. intros H Hp. destruct b; cbn [wrap edge]; [exact Hp|]. destruct (H eq_refl) as [H1 H2]. pose proof (edge_level e H2). lia. Qed.
Lemma infix_wrap e b p l l0 : bracketed e -> p <= 14 -> l < p -> (b = false -> p <= level 9 e /\ is_cond e = false) -> fits false true l0 (wrap b (br e)) = true ->
  fits true true l (wrap b (br e)) = true /\ (l <? p) && (p <=? edge (wrap b (br e))) = true.
Proof.
  intros H Hp Hl Hb Hf. split.
  - eapply bracketed_wrap; [exact H|exact Hf|]. intros E. destruct (Hb E). right. lia.
  - apply andb_true_iff. split; [now apply Nat.ltb_lt|]. apply Nat.leb_le. now apply edge_wrap.
Qed.
Lemma bin_prec_range o : 1 <= bin_prec o <= 12.
Proof. destruct o; cbn; lia. Qed.

(** Equations. *)
Lemma node_return e : node_stmt (Return (Some e)) = Node no_attrs OpReturn (bare (sym KReturn)) (Some (node_of e)) None [] []. Proof. reflexivity. Qed.
Lemma node_while c l : node_stmt (While c l) = Node no_attrs OpWhile (bare (sym KWhile)) (Some (node_of c)) None (map node_stmt l) []. Proof. reflexivity. Qed.
Lemma node_for x e to l : node_stmt (For x e to l) = Node no_attrs OpFor (bare (sym KFor)) (Some (mk OpIdentifier (KIdentifier, x)))
  (Some (match to with Some e2 => Node no_attrs OpRange (bare (sym KDotDot)) (Some (node_of e)) (Some (node_of e2)) [] [] | None => node_of e end)) (map node_stmt l) [].
Proof. reflexivity. Qed.
Lemma node_if c l r : node_stmt (If c l r) = Node no_attrs OpIf (bare (sym KIf)) (Some (node_of c)) (node_branch r) (map node_stmt l) []. Proof. reflexivity. Qed.
Lemma node_match e cs : node_stmt (Match e cs) = Node no_attrs OpMatch (bare (sym KMatch)) (Some (node_of e)) None (map node_case cs) []. Proof. reflexivity. Qed.
Lemma node_assign a e : node_stmt (Assign a e) = Node no_attrs OpAs (bare (sym KAs)) (Some (node_of a)) (Some (node_of e)) [] []. Proof. reflexivity. Qed.
Lemma node_declare a e : node_stmt (Declare a e) = Node no_attrs OpDas (bare (sym KDas)) (Some (node_of a)) (Some (node_of e)) [] []. Proof. reflexivity. Qed.
Lemma node_elseif c l r : node_branch (ElseIf c l r) = Some (Node no_attrs OpElseIf (bare (sym KElseIf)) (Some (node_of c)) (node_branch r) (map node_stmt l) []). Proof. reflexivity. Qed.
Lemma node_else l : node_branch (Else l) = Some (Node no_attrs OpElse (bare (sym KElse)) None None (map node_stmt l) []). Proof. reflexivity. Qed.
Lemma brs_return e : brs (Return (Some e)) = Return (Some (br e)). Proof. reflexivity. Qed.
Lemma brs_while c l : brs (While c l) = While (br c) (map brs l). Proof. reflexivity. Qed.
Lemma brs_for x e to l : brs (For x e to l) = For x (br e) (match to with Some e2 => Some (br e2) | None => None end) (map brs l). Proof. reflexivity. Qed.
Lemma brs_if c l r : brs (If c l r) = If (br c) (map brs l) (bracket_branch 9 r). Proof. reflexivity. Qed.
Lemma brs_match e cs : brs (Match e cs) = Match (br e) (map (fun c => (fst (fst c), snd (fst c), map brs (snd c))) cs). Proof. reflexivity. Qed.
Lemma brs_assign a e : brs (Assign a e) = Assign (br a) (br e). Proof. reflexivity. Qed.
Lemma brs_declare a e : brs (Declare a e) = Declare (br a) (br e). Proof. reflexivity. Qed.
Lemma brb_elseif c l r : bracket_branch 9 (ElseIf c l r) = ElseIf (br c) (map brs l) (bracket_branch 9 r). Proof. reflexivity. Qed.
Lemma brb_else l : bracket_branch 9 (Else l) = Else (map brs l). Proof. reflexivity. Qed.

Section BracketStep.
Variable N : nat.
Hypothesis IHe : forall e, List.length (show e) <= N -> bracketed e.
Hypothesis IHs : forall s, List.length (show_stmt s) <= N -> bracketed_stmt s.
Lemma bracket_body_step b : List.length (show_body b) <= N -> nodes_body (bracket_body 9 b) = nodes_body b /\ block_op (bracket_body 9 b) = block_op b /\
  (fits_body false true (bracket_body 9 b) = true -> fits_body true true (bracket_body 9 b) = true).
Proof.
  intros L. destruct b as [l|e]; cbn [show_body] in L.
  - destruct (bracketed_block l) as [H1 H2]; [intros s Hs; apply IHs; pose proof (flat_in show_stmt s l Hs); len|]. split; [exact H1|]. split; [reflexivity|].
    cbn [bracket_body]. change (if_ true (ends_all stmt_ends show_stmt (map brs l) KRBrace) && forallb (fits_stmt false true) (map brs l) = true ->
      if_ true (ends_all stmt_ends show_stmt (map brs l) KRBrace) && forallb (fits_stmt true true) (map brs l) = true). rewrite !andb_true_iff. tauto.
  - assert (H : bracketed e) by (apply IHe; len). split; [cbn; f_equal; apply H|]. split; [reflexivity|]. cbn [bracket_body]. exact (bracketed_0 e H).
Qed.
Ltac fit := repeat match goal with H : (_ && _)%bool = true |- _ => apply andb_true_iff in H; destruct H | |- (_ && _)%bool = true => apply andb_true_iff; split end.
Lemma bracket_step e : List.length (show e) <= S N -> bracketed e.
Proof.
  intros L. destruct e as [x|li|e|u e|o a b|c a b|a i|f args|f ts args|es|t|tps ps o b]; cbn [show] in L.
  - split; [reflexivity|]. intros. reflexivity.
  - split; [reflexivity|]. intros. reflexivity.
  - assert (H : bracketed e) by (apply IHe; len). split; [apply H|]. intros l Hf _. now apply bracketed_0.
  - assert (H : bracketed e) by (apply IHe; len). split.
    + cbn [bracket node_of]. now rewrite wrap_node, (proj1 H).
    + intros l Hf _. cbn [bracket fits] in *. eapply bracketed_wrap; [exact H|exact Hf|]. intros E. apply orb_false_iff in E as [E1 E2]. apply Nat.ltb_ge in E1.
      destruct (any_level e) eqn:Ea; [now left|]. right. apply andb_false_iff in E2 as [E2|E2]; [apply Nat.eqb_neq in E2; lia|]. destruct e; discriminate.
  - assert (Ha : bracketed a) by (apply IHe; len). assert (Hb : bracketed b) by (apply IHe; len). split.
    + cbn [bracket node_of]. now rewrite !wrap_node, (proj1 Ha), (proj1 Hb).
    + intros l Hf [Hl|Hl]; [discriminate|]. cbn [level] in Hl. cbn [bracket fits if_ negb orb] in *. fit; pose proof (bin_prec_range o) as Hr.
      * apply Nat.ltb_lt. exact Hl.
      * apply Nat.leb_le, edge_wrap; [|lia]. intros E. apply orb_false_iff in E as [E1 E2]. apply Nat.ltb_ge in E1. split; [exact E1|].
        destruct (is_cond a) eqn:Ec; [|reflexivity]. exfalso. destruct a; try discriminate. cbn [level] in *. assert (E3 : bin_prec o = 1) by lia. rewrite E3 in E2. discriminate.
      * eapply bracketed_wrap; [exact Ha|eassumption|]. intros E. apply orb_false_iff in E as [E1 _]. apply Nat.ltb_ge in E1. right. lia.
      * eapply bracketed_wrap; [exact Hb|eassumption|]. intros E. apply Nat.leb_gt in E. now right.
  - assert (Hc : bracketed c) by (apply IHe; len). assert (Ha : bracketed a) by (apply IHe; len). assert (Hb : bracketed b) by (apply IHe; len). split.
    + cbn [bracket node_of]. now rewrite !wrap_node, (proj1 Ha), (proj1 Hb), (proj1 Hc).
    + intros l Hf [Hl|Hl]; [discriminate|]. cbn [level] in Hl. cbn [bracket fits if_ negb orb] in *. fit.
      * now apply Nat.ltb_lt.
      * apply Nat.leb_le, edge_wrap; [|lia]. intros E. apply Nat.leb_gt in E. split; [lia|]. destruct c; try reflexivity. cbn in E. lia.
      * eapply bracketed_wrap; [exact Hc|eassumption|]. intros E. apply Nat.leb_gt in E. right. lia.
      * now apply bracketed_0.
      * now apply bracketed_0.
  - assert (Ha : bracketed a) by (apply IHe; len). assert (Hi : bracketed i) by (apply IHe; len). split.
    + cbn [bracket node_of]. now rewrite !wrap_node, (proj1 Ha), (proj1 Hi).
    + intros l Hf [Hl|Hl]; [discriminate|]. cbn [level] in Hl. cbn [bracket fits if_ negb orb] in *. fit.
      * now apply Nat.ltb_lt.
      * apply Nat.leb_le, edge_wrap; [|lia]. intros E. apply Nat.ltb_ge in E. split; [lia|]. destruct a; try reflexivity. cbn in E. lia.
      * eapply bracketed_wrap; [exact Ha|eassumption|]. intros E. apply Nat.ltb_ge in E. right. lia.
      * now apply bracketed_0.
  - assert (Hg : bracketed f) by (apply IHe; len). destruct (bracketed_list args) as [H1 H2]; [intros z Hz; apply IHe; pose proof (show_in show z args Hz); len|]. split.
    + cbn [bracket node_of]. now rewrite !wrap_node, (proj1 Hg), H1.
    + intros l Hf [Hl|Hl]; [discriminate|]. cbn [level] in Hl. cbn [bracket fits if_ negb orb] in *. fit.
      * now apply Nat.ltb_lt.
      * apply Nat.leb_le, edge_wrap; [|lia]. intros E. apply Nat.ltb_ge in E. split; [lia|]. destruct f; try reflexivity. cbn in E. lia.
      * eapply bracketed_wrap; [exact Hg|eassumption|]. intros E. apply Nat.ltb_ge in E. right. lia.
      * now apply H2.
  - assert (Hg : bracketed f) by (apply IHe; len). destruct (bracketed_list args) as [H1 H2]; [intros z Hz; apply IHe; pose proof (show_in show z args Hz); len|]. split.
    + cbn [bracket node_of]. now rewrite !wrap_node, (proj1 Hg), H1.
    + intros l Hf [Hl|Hl]; [discriminate|]. cbn [level] in Hl. cbn [bracket fits if_ negb orb] in *. fit.
      * now apply Nat.ltb_lt.
      * apply Nat.leb_le, edge_wrap; [|lia]. intros E. apply Nat.ltb_ge in E. split; [lia|]. destruct f; try reflexivity. cbn in E. lia.
      * eapply bracketed_wrap; [exact Hg|eassumption|]. intros E. apply Nat.ltb_ge in E. right. lia.
      * now apply H2.
  - destruct (bracketed_list es) as [H1 H2]; [intros z Hz; apply IHe; pose proof (show_in show z es Hz); len|]. split; [cbn [bracket node_of]; now rewrite H1|].
    intros l Hf _. exact (H2 Hf).
  - split; [reflexivity|]. intros. reflexivity.
  - destruct (bracket_body_step b) as (H1 & H2 & H3); [len|]. split;
      [change (fn_node no_attrs (block_op (bracket_body 9 b)) (sym KFn) tps ps o (nodes_body (bracket_body 9 b)) = fn_node no_attrs (block_op b) (sym KFn) tps ps o (nodes_body b)); now rewrite H1, H2|].
    intros l Hf _. exact (H3 Hf).
Qed.

Hypothesis IHe1 : forall e, List.length (show e) <= S N -> bracketed e.
Lemma bracket_branch_step : forall b, List.length (show_branch b) <= N -> node_branch (bracket_branch 9 b) = node_branch b /\
  (fits_branch false true (bracket_branch 9 b) = true -> fits_branch true true (bracket_branch 9 b) = true).
Proof.
  fix IH 1. intros [|c l b|l] L; cbn [show_branch] in L.
  - split; auto.
  - assert (Hc : bracketed c) by (apply IHe; len). destruct (bracketed_block l) as [H1 H2]; [intros s Hs; apply IHs; pose proof (flat_in show_stmt s l Hs); len|].
    destruct (IH b) as [H3 H4]; [len|]. split; [rewrite brb_elseif, !node_elseif; now rewrite H1, H3, (proj1 Hc)|].
    change (fits false true 0 (br c) && if_ true (ends_all stmt_ends show_stmt (map brs l) KRBrace) && forallb (fits_stmt false true) (map brs l) && fits_branch false true (bracket_branch 9 b) = true ->
      fits true true 0 (br c) && if_ true (ends_all stmt_ends show_stmt (map brs l) KRBrace) && forallb (fits_stmt true true) (map brs l) && fits_branch true true (bracket_branch 9 b) = true).
    intros Hf. fit; auto. now apply bracketed_0.
  - destruct (bracketed_block l) as [H1 H2]; [intros s Hs; apply IHs; pose proof (flat_in show_stmt s l Hs); len|]. split; [rewrite brb_else, !node_else; now rewrite H1|].
    change (if_ true (ends_all stmt_ends show_stmt (map brs l) KRBrace) && forallb (fits_stmt false true) (map brs l) = true ->
      if_ true (ends_all stmt_ends show_stmt (map brs l) KRBrace) && forallb (fits_stmt true true) (map brs l) = true).
    intros Hf. fit; auto.
Qed.
Lemma bracket_stmt_step s : List.length (show_stmt s) <= S N -> bracketed_stmt s.
Proof.
  intros L. unfold bracketed_stmt. destruct s as [[e|]|c l|x e to l|c l b|e cs|a e|a e|e]; cbn [show_stmt] in L.
  - assert (H : bracketed e) by (apply IHe1; len). split; [rewrite brs_return, !node_return; now rewrite (proj1 H)|].
    change (if_ true (begins (first (show (br e)))) && fits false true 0 (br e) = true -> if_ true (begins (first (show (br e)))) && fits true true 0 (br e) = true).
    intros Hf. fit; auto. now apply bracketed_0.
  - split; auto.
  - assert (Hc : bracketed c) by (apply IHe; len). destruct (bracketed_block l) as [H1 H2]; [intros s Hs; apply IHs; pose proof (flat_in show_stmt s l Hs); len|].
    split; [rewrite brs_while, !node_while; now rewrite H1, (proj1 Hc)|].
    change (fits false true 0 (br c) && if_ true (ends_all stmt_ends show_stmt (map brs l) KRBrace) && forallb (fits_stmt false true) (map brs l) = true ->
      fits true true 0 (br c) && if_ true (ends_all stmt_ends show_stmt (map brs l) KRBrace) && forallb (fits_stmt true true) (map brs l) = true).
    intros Hf. fit; auto. now apply bracketed_0.
  - assert (Hc : bracketed e) by (apply IHe; len). destruct (bracketed_block l) as [H1 H2]; [intros s Hs; apply IHs; pose proof (flat_in show_stmt s l Hs); destruct to; len|].
    assert (Ht : match to with Some e2 => bracketed e2 | None => True end) by (destruct to; [apply IHe; len|exact I]).
    split; [rewrite brs_for, !node_for; destruct to; rewrite H1, (proj1 Hc), ?(proj1 Ht); reflexivity|].
    change (fits false true 0 (br e) && match match to with Some e2 => Some (br e2) | None => None end with Some e2 => fits false true 0 e2 | None => true end &&
        if_ true (ends_all stmt_ends show_stmt (map brs l) KRBrace) && forallb (fits_stmt false true) (map brs l) = true ->
      fits true true 0 (br e) && match match to with Some e2 => Some (br e2) | None => None end with Some e2 => fits true true 0 e2 | None => true end &&
        if_ true (ends_all stmt_ends show_stmt (map brs l) KRBrace) && forallb (fits_stmt true true) (map brs l) = true).
    intros Hf. fit; auto; [now apply bracketed_0|]. destruct to; [now apply bracketed_0|reflexivity].
  - assert (Hc : bracketed c) by (apply IHe; len). destruct (bracketed_block l) as [H1 H2]; [intros s Hs; apply IHs; pose proof (flat_in show_stmt s l Hs); len|].
    destruct (bracket_branch_step b) as [H3 H4]; [len|]. split; [rewrite brs_if, !node_if; now rewrite H1, H3, (proj1 Hc)|].
    change (fits false true 0 (br c) && if_ true (ends_all stmt_ends show_stmt (map brs l) KRBrace) && forallb (fits_stmt false true) (map brs l) && fits_branch false true (bracket_branch 9 b) = true ->
      fits true true 0 (br c) && if_ true (ends_all stmt_ends show_stmt (map brs l) KRBrace) && forallb (fits_stmt true true) (map brs l) && fits_branch true true (bracket_branch 9 b) = true).
    intros Hf. fit; auto. now apply bracketed_0.
  - change (List.length (sym KMatch :: show e ++ sym KLBrace :: flat_map show_case cs ++ [sym KRBrace]) <= S N) in L.
    assert (He : bracketed e) by (apply IHe; len).
    assert (Hcs : forall c, In c cs -> map node_stmt (map brs (snd c)) = map node_stmt (snd c) /\
      (forallb (fits_stmt false true) (map brs (snd c)) = true -> forallb (fits_stmt true true) (map brs (snd c)) = true)).
    { intros c Hc. apply bracketed_block. intros s Hs. apply IHs. pose proof (flat_in show_case c cs Hc) as H1. pose proof (flat_in show_stmt s (snd c) Hs) as H2. unfold show_case in H1 at 1. len. }
    split.
    + rewrite brs_match, !node_match, (proj1 He), map_map. f_equal. apply map_ext_in. intros c Hc. unfold node_case. cbn [fst snd]. now rewrite (proj1 (Hcs c Hc)).
    + change (fits false true 0 (br e) && forallb (fun k => if_ true (ends_all stmt_ends show_stmt (snd k) KRBrace) && forallb (fits_stmt false true) (snd k))
          (map (fun c => (fst (fst c), snd (fst c), map brs (snd c))) cs) = true ->
        fits true true 0 (br e) && forallb (fun k => if_ true (ends_all stmt_ends show_stmt (snd k) KRBrace) && forallb (fits_stmt true true) (snd k))
          (map (fun c => (fst (fst c), snd (fst c), map brs (snd c))) cs) = true).
      intros Hf. fit; [now apply bracketed_0|]. rewrite forallb_forall in *. intros k Hk. specialize (H0 k Hk). apply in_map_iff in Hk as (c & <- & Hc). cbn [fst snd] in *. fit; auto.
      now apply (Hcs c Hc).
  - assert (Ha : bracketed a) by (apply IHe; pose proof (proj1 (show_first e)); destruct (show e); [congruence|len]). assert (He : bracketed e) by (apply IHe; len).
    split; [rewrite brs_assign, !node_assign; now rewrite (proj1 Ha), (proj1 He)|].
    change (if_ true (begins (first (show (br a)))) && fits false true 0 (br a) && fits false true 0 (br e) = true -> if_ true (begins (first (show (br a)))) && fits true true 0 (br a) && fits true true 0 (br e) = true).
    intros Hf. fit; auto; now apply bracketed_0.
  - assert (Ha : bracketed a) by (apply IHe; pose proof (proj1 (show_first e)); destruct (show e); [congruence|len]). assert (He : bracketed e) by (apply IHe; len).
    split; [rewrite brs_declare, !node_declare; now rewrite (proj1 Ha), (proj1 He)|].
    change (if_ true (begins (first (show (br a)))) && fits false true 0 (br a) && fits false true 0 (br e) = true -> if_ true (begins (first (show (br a)))) && fits true true 0 (br a) && fits true true 0 (br e) = true).
    intros Hf. fit; auto; now apply bracketed_0.
  - assert (H : bracketed e) by (apply IHe1; exact L). split; [exact (proj1 H)|].
    change (if_ true (begins (first (show (br e)))) && fits false true 0 (br e) = true -> if_ true (begins (first (show (br e)))) && fits true true 0 (br e) = true).
    intros Hf. fit; auto. now apply bracketed_0.
Qed.
End BracketStep.
Lemma show_stmt_pos s : show_stmt s <> [].
Proof. destruct s as [[e|]|c l|x e to l|c l b|e cs|a e|a e|e]; cbn [show_stmt]; try discriminate; try (intros E; apply app_eq_nil in E as [_ E]; discriminate). apply show_first. Qed.
Lemma all_bracketed : forall N, (forall e, List.length (show e) <= N -> bracketed e) /\ (forall s, List.length (show_stmt s) <= N -> bracketed_stmt s).
Proof.
  induction N as [|N [IHe IHs]].
  - split; [intros e L|intros s L]; exfalso.
    + destruct (show_first e) as [H _]. destruct (show e); [congruence|cbn in L; lia].
    + pose proof (show_stmt_pos s) as H. destruct (show_stmt s); [congruence|cbn in L; lia].
  - assert (H : forall e, List.length (show e) <= S N -> bracketed e) by (apply bracket_step; assumption). split; [exact H|]. apply bracket_stmt_step; assumption.
Qed.
Lemma any_bracketed e : bracketed e.
Proof. exact (proj1 (all_bracketed _) e (le_n _)). Qed.
Lemma any_bracketed_stmt s : bracketed_stmt s.
Proof. exact (proj2 (all_bracketed _) s (le_n _)). Qed.
Lemma bracketed_decl attr_name d : node_decl attr_name (bracket_decl 9 d) = node_decl attr_name d /\
  (fits_decl false true (bracket_decl 9 d) = true -> fits_decl true true (bracket_decl 9 d) = true).
Proof.
  destruct d as [attrs x tps ps o [b|]|attrs x tps fs|attrs x tps cs]; cbn [bracket_decl]; try (split; [reflexivity|auto]).
  destruct (bracket_body_step (List.length (show_body b)) (fun e _ => any_bracketed e) (fun s _ => any_bracketed_stmt s) b (le_n _)) as (H1 & H2 & H3).
  split; [|exact H3]. cbn [node_decl]. now rewrite H1, H2.
Qed.
Lemma program_bracketed attr_name p : map (node_decl attr_name) (map (bracket_decl 9) p) = map (node_decl attr_name) p /\
  (fits_program false true (map (bracket_decl 9) p) = true -> fits_program true true (map (bracket_decl 9) p) = true).
Proof.
  split; [rewrite map_map; apply map_ext; intros d; apply bracketed_decl|]. unfold fits_program. rewrite !andb_true_iff. intros [H1 H2]. split; [exact H1|].
  rewrite forallb_forall in *. intros x Hx. specialize (H2 x Hx). apply in_map_iff in Hx as (d & <- & _). now apply (bracketed_decl attr_name).
Qed.
