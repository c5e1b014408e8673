(** What the nodes of a text are read as. *)
From Coq Require Import String ZArith List Bool.
From Verif Require Import TypeModel TypeGraph CheckModel DeclModel LitModel LexModel ParseModel WalkModel WalkFold ReadModel ParseSpec ReadSpec.
Import ListNotations.
Open Scope list_scope.

(* -------------------------------------------------------------------------- positions *)

Section Induction.
Variable P : node -> Prop.
Hypothesis H : forall a o t l r ss ps, (forall m, l = Some m -> P m) -> (forall m, r = Some m -> P m) -> Forall P ss -> Forall P ps -> P (Node a o t l r ss ps).
Fixpoint node_all (n : node) : P n :=
  match n with
  | Node a o t l r ss ps =>
    let fix go (l : list node) : Forall P l := match l return Forall P l with [] => Forall_nil P | m :: l' => Forall_cons m (node_all m) (go l') end in
    H a o t l r ss ps
      (match l return (forall m, l = Some m -> P m) with Some x => fun m E => match E in _ = y return match y with Some z => P z | None => True end with eq_refl => node_all x end | None => fun m E => match E in _ = y return match y with Some z => P z | None => True end with eq_refl => I end end)
      (match r return (forall m, r = Some m -> P m) with Some x => fun m E => match E in _ = y return match y with Some z => P z | None => True end with eq_refl => node_all x end | None => fun m E => match E in _ = y return match y with Some z => P z | None => True end with eq_refl => I end end)
      (go ss) (go ps)
  end.
End Induction.

Lemma val_erase n : val (erase n) = val n.
Proof. destruct n as [a o t l r ss ps]. unfold val. cbn. unfold strip, bare, look. cbn. destruct (tk_kind t); reflexivity. Qed.
Lemma all_same {A B} (f g : A -> option B) l : Forall (fun x => f x = g x) l -> all f l = all g l.
Proof. unfold all. intros K. f_equal. induction K; cbn; congruence. Qed.
Lemma all_erase {B} (f : node -> option B) l : Forall (fun n => f (erase n) = f n) l -> all f (map erase l) = all f l.
Proof. unfold all. rewrite map_map. intros K. f_equal. induction K; cbn; congruence. Qed.
Lemma map_erase {B} (f : node -> B) l : Forall (fun n => f (erase n) = f n) l -> map f (map erase l) = map f l.
Proof. rewrite map_map. intros K. induction K; cbn; congruence. Qed.
Lemma within_erase {B} (f : node -> option B) o : (forall m, o = Some m -> f (erase m) = f m) -> within f (option_map erase o) = within f o.
Proof. destruct o; cbn; auto. Qed.
Lemma any_erase {B} (f : node -> option B) o : (forall m, o = Some m -> f (erase m) = f m) -> if_any f (option_map erase o) = if_any f o.
Proof. destruct o; cbn; auto. intros K. now rewrite K. Qed.

Lemma texp_erase : forall n, texp_of (erase n) = texp_of n /\ all texp_of (map erase (n_params n)) = all texp_of (n_params n).
Proof.
  apply node_all. intros a o t l r ss ps Hl Hr Hs Hp. split; [|apply all_erase; cbn; eapply Forall_impl; [|exact Hp]; intros m K; apply K].
  pose proof (val_erase (Node a o t l r ss ps)) as V. destruct o; try reflexivity.
  - destruct l as [[a1 o1 t1 l1 r1 s1 p1]|]; cbn [erase texp_of option_map]; cbn [erase] in V.
    + cbn [option_map erase] in V. rewrite V. destruct (Hl _ eq_refl) as [_ K]. cbn [n_params] in K. now rewrite K.
    + cbn [option_map] in V. now rewrite V.
  - cbn [erase texp_of]. rewrite any_erase by (intros m E; now apply Hl). f_equal. apply all_erase. eapply Forall_impl; [|exact Hs]. intros m K. apply K.
  - cbn [erase texp_of]. now rewrite within_erase by (intros m E; now apply Hl).
Qed.
Lemma texp_erase1 n : texp_of (erase n) = texp_of n. Proof. apply texp_erase. Qed.
Lemma texps_erase l : all texp_of (map erase l) = all texp_of l.
Proof. apply all_erase. apply Forall_forall. intros; apply texp_erase1. Qed.
Lemma any_texp o : if_any texp_of (option_map erase o) = if_any texp_of o.
Proof. apply any_erase. intros; apply texp_erase1. Qed.
Lemma param_erase n : param_of (erase n) = param_of n.
Proof. unfold param_of. rewrite val_erase. destruct n as [a o t l r ss ps]. cbn. rewrite within_erase; auto. intros; apply texp_erase1. Qed.
Lemma params_erase l : all param_of (map erase l) = all param_of l.
Proof. apply all_erase. apply Forall_forall. intros; apply param_erase. Qed.
Lemma op_erase n : n_op (erase n) = n_op n. Proof. now destruct n. Qed.
Lemma tparam_erase n : tparam_of (erase n) = tparam_of n.
Proof. unfold tparam_of. now rewrite val_erase, op_erase. Qed.
Lemma name_erase n : name_of (erase n) = name_of n.
Proof. unfold name_of. now rewrite val_erase, op_erase. Qed.
Lemma lit_erase t : lit_of (strip t) = lit_of t.
Proof. unfold lit_of, strip, bare, look. cbn. destruct (tk_kind t); reflexivity. Qed.

Lemma part_erase : forall n, part_of (erase n) = part_of n.
Proof.
  apply node_all. intros a o t l r ss ps Hl Hr Hs Hp.
  assert (El : match option_map erase l with Some m => as_expr (part_of m) | None => None end = match l with Some m => as_expr (part_of m) | None => None end).
  { destruct l; cbn; auto. now rewrite Hl. }
  assert (Er : match option_map erase r with Some m => as_expr (part_of m) | None => None end = match r with Some m => as_expr (part_of m) | None => None end).
  { destruct r; cbn; auto. now rewrite Hr. }
  assert (Es : forall B (f : option part -> B), map (fun m => f (part_of m)) (map erase ss) = map (fun m => f (part_of m)) ss).
  { intros B f. apply (map_erase (fun m => f (part_of m))). eapply Forall_impl; [|exact Hs]. intros m K. now rewrite K. }
  pose proof (val_erase (Node a o t l r ss ps)) as V. pose proof (texp_erase1 (Node a o t l r ss ps)) as T. cbn [erase] in V, T |- *. cbn [part_of].
  rewrite El, Er, !Es, V, T, lit_erase, texps_erase, params_erase, any_texp.
  destruct o; try reflexivity.
  all: try (destruct r as [m|]; cbn [option_map]; [now rewrite (Hr m eq_refl)|reflexivity]).
  all: try (destruct l as [m|]; cbn [option_map]; [now rewrite (Hl m eq_refl)|reflexivity]).
  all: try (destruct r as [m|]; reflexivity).
  - rewrite (all_erase name_of); [reflexivity|]. apply Forall_forall. intros; apply name_erase.
  - rewrite (within_erase name_of) by (intros; apply name_erase). destruct r as [m|]; cbn [option_map]; [now rewrite (Hr m eq_refl)|reflexivity].
Qed.
Lemma fn_erase n b : fn_of (erase n) b = fn_of n b.
Proof.
  unfold fn_of. rewrite val_erase. destruct n as [a o t l r ss ps]. cbn [n_right n_params n_left n_token erase]. rewrite params_erase, any_texp.
  destruct r as [m|]; cbn [option_map within]; [|reflexivity]. destruct m as [a1 o1 t1 l1 r1 s1 p1]. cbn [erase n_params].
  rewrite (all_erase tparam_of); [reflexivity|]. apply Forall_forall. intros; apply tparam_erase.
Qed.
Lemma member_erase n : member_of (erase n) = member_of n.
Proof. unfold member_of. rewrite val_erase. destruct n as [a o t l r ss ps]. cbn [n_params erase]. now rewrite params_erase. Qed.
Lemma decl_erase n : decl_of (erase n) = decl_of n.
Proof.
  unfold decl_of. rewrite op_erase, val_erase, fn_erase.
  assert (S : n_stmts (erase n) = map erase (n_stmts n)) by now destruct n. assert (Q : n_params (erase n) = map erase (n_params n)) by now destruct n. rewrite S, Q.
  rewrite (all_erase tparam_of) by (apply Forall_forall; intros; apply tparam_erase). rewrite params_erase.
  rewrite (all_erase member_of) by (apply Forall_forall; intros; apply member_erase).
  rewrite (all_erase (fun m => as_stmt (part_of m))) by (apply Forall_forall; intros; now rewrite part_erase).
  rewrite (all_erase (fun m => as_expr (part_of m))) by (apply Forall_forall; intros; now rewrite part_erase).
  destruct (n_op n); try reflexivity.
  - destruct (all (fun m => as_stmt (part_of m)) (n_stmts n)); cbn; [apply fn_erase|reflexivity].
  - destruct (all (fun m => as_expr (part_of m)) (n_stmts n)) as [[|e [|]]|]; try reflexivity. apply fn_erase.
Qed.

(** So does the pass over literals. *)
Definition bare_fold (r : node * list (list Z)) : node * list (list Z) := (erase (fst r), snd r).
Definition bare_folds (r : list node * list (list Z)) : list node * list (list Z) := (map erase (fst r), snd r).
Definition bare_opt (r : option node * list (list Z)) : option node * list (list Z) := (option_map erase (fst r), snd r).
Lemma int_erase n : is_int (erase n) = is_int n.
Proof. destruct n as [a o t l r ss ps]. reflexivity. Qed.
Lemma folds_erase l : Forall (fun n => fold_walk (erase n) = option_map bare_fold (fold_walk n)) l -> fold_walk_all (map erase l) = option_map bare_folds (fold_walk_all l).
Proof.
  induction 1 as [|n l H _ IH]; [reflexivity|]. cbn [map fold_walk_all]. rewrite H, IH. destruct (fold_walk n) as [[x e]|]; [|reflexivity]. now destruct (fold_walk_all l) as [[xs es]|].
Qed.
Lemma must_erase l : (forall m, l = Some m -> fold_walk (erase m) = option_map bare_fold (fold_walk m)) -> must (option_map erase l) = option_map bare_opt (must l).
Proof. destruct l as [m|]; [|reflexivity]. intros H. cbn. rewrite (H m eq_refl). now destruct (fold_walk m) as [[x e]|]. Qed.
Lemma maybe_erase l : (forall m, l = Some m -> fold_walk (erase m) = option_map bare_fold (fold_walk m)) -> maybe (option_map erase l) = option_map bare_opt (maybe l).
Proof. destruct l as [m|]; [|reflexivity]. intros H. cbn. rewrite (H m eq_refl). now destruct (fold_walk m) as [[x e]|]. Qed.
Lemma fold_erase : forall n, fold_walk (erase n) = option_map bare_fold (fold_walk n).
Proof.
  apply node_all. intros a o t l r ss ps Hl Hr Hs Hp. cbn [erase]. rewrite !fold_eq. unfold WalkFold.body.
  rewrite (must_erase l Hl), (must_erase r Hr), (maybe_erase l Hl), (maybe_erase r Hr), (folds_erase ss Hs), (folds_erase ps Hp).
  assert (O : forall t l, overflow (Node a OpLit (strip t) (option_map erase l) (option_map erase r) (map erase ss) (map erase ps)) = overflow (Node a OpLit t l r ss ps)).
  { intros t0 l0. unfold overflow. change (is_int (Node a OpLit (strip t0) (option_map erase l0) (option_map erase r) (map erase ss) (map erase ps))) with (is_int (Node a OpLit t0 l0 r ss ps)).
    unfold is_int. cbn [n_op n_token]. destruct (kind_eqb (tk_kind t0) KInteger) eqn:E; [|reflexivity]. unfold strip, bare, look. cbn. unfold kind_eqb in E. destruct (kind_eq_dec (tk_kind t0) KInteger) as [->|]; [reflexivity|discriminate]. }
  destruct o; cbn [fold_neg is_lit n_op].
  all: try (destruct (must l) as [[? ?]|]; [|reflexivity]; destruct (must r) as [[? ?]|]; reflexivity).
  all: try (destruct (must l) as [[? ?]|]; [|reflexivity]; destruct (fold_walk_all ss) as [[? ?]|]; [|reflexivity]; destruct (maybe r) as [[? ?]|]; reflexivity).
  all: try (destruct (maybe l) as [[? ?]|]; reflexivity).
  all: try (destruct (must l) as [[? ?]|]; reflexivity).
  all: try (destruct (maybe l) as [[? ?]|]; [|reflexivity]; destruct (fold_walk_all ss) as [[? ?]|]; reflexivity).
  all: try (destruct (maybe l) as [[? ?]|]; [|reflexivity]; destruct (fold_walk_all ps) as [[? ?]|]; [|reflexivity]; destruct (fold_walk_all ss) as [[? ?]|]; reflexivity).
  all: try (destruct (fold_walk_all ps) as [[? ?]|]; [|reflexivity]; destruct (fold_walk_all ss) as [[? ?]|]; reflexivity).
  all: try (destruct (fold_walk_all ps) as [[? ?]|]; reflexivity).
  all: try (destruct (fold_walk_all ss) as [[? ?]|]; reflexivity).
  all: try (destruct (maybe r) as [[? ?]|]; [|reflexivity]; destruct (fold_walk_all ps) as [[? ?]|]; [|reflexivity]; destruct (fold_walk_all ss) as [[? ?]|]; [|reflexivity]; destruct (maybe l) as [[? ?]|]; reflexivity).
  all: try (destruct (must r) as [[? ?]|]; [|reflexivity]; destruct (must l) as [[? ?]|]; [|reflexivity]; destruct (fold_walk_all ss) as [[? ?]|]; reflexivity).
  - now rewrite O.
  - destruct l as [m|]; [|reflexivity]. cbn [option_map]. rewrite int_erase. destruct (is_int m) eqn:E.
    + cbn [is_lit n_op]. assert (K : with_val (n_token (erase m)) (45%Z :: tk_val (n_token (erase m))) = strip (with_val (n_token m) (45%Z :: tk_val (n_token m)))).
      { destruct m as [a1 o1 t1 l1 r1 s1 p1]. unfold is_int in E. cbn in E. destruct o1; try discriminate. unfold kind_eqb in E. destruct (kind_eq_dec (tk_kind t1) KInteger) as [K|]; [|discriminate].
        cbn. unfold with_val, strip, bare, look. cbn. now rewrite !K. }
      rewrite K. change None with (option_map erase None) at 1 2. rewrite O. reflexivity.
    + cbn [is_lit n_op]. change (Some (erase m)) with (option_map erase (Some m)). destruct (must (Some m)) as [[? ?]|]; reflexivity.
Qed.

(* --------------------------------------------------------------------- trees of texts *)

(** The pass over literals makes of [n] a node that [rd] reads as [g]; it reports something
    only if [g] is nothing. *)
Definition taken {B} (es : list (list Z)) (g : option B) : option B := match es with [] => g | _ => None end.
Definition reads {B} (rd : node -> option B) (n : node) (g : option B) : Prop :=
  exists n' es, fold_walk n = Some (n', es) /\ taken es (rd n') = g.
Definition reads_all {B} (rd : node -> option B) (ns : list node) (gs : list (option B)) : Prop :=
  exists ns' es, fold_walk_all ns = Some (ns', es) /\ taken es (all_some (map rd ns')) = all_some gs.
Lemma reads_nil {B} (rd : node -> option B) : reads_all rd [] [].
Proof. exists [], []. now split. Qed.
Lemma reads_cons {B} (rd : node -> option B) n g ns gs : reads rd n g -> reads_all rd ns gs -> reads_all rd (n :: ns) (g :: gs).
Proof.
  intros (n' & es & F & H) (ns' & es' & F' & H'). exists (n' :: ns'), (es ++ es'). split; [cbn; now rewrite F, F'|]. cbn [map all_some].
  subst g. rewrite <- H'. destruct es, es'; cbn; try reflexivity. now destruct (rd n').
Qed.

(** Types have no literals. *)
Lemma fold_same l : Forall (fun n => fold_walk n = Some (n, [])) l -> fold_walk_all l = Some (l, []).
Proof. induction 1 as [|n l H _ IH]; [reflexivity|]. cbn. now rewrite H, IH. Qed.
Lemma fold_ty : forall t, fold_walk (node_ty t) = Some (node_ty t, []).
Proof.
  fix IH 1. intros [x [l|]|l [r|]|t]; cbn [node_ty].
  - rewrite fold_eq. unfold WalkFold.body. cbn [fold_neg is_lit n_op maybe]. rewrite fold_eq. unfold WalkFold.body. cbn [fold_neg is_lit n_op maybe].
    rewrite (fold_same (map node_ty l)); [reflexivity|]. induction l; constructor; [apply IH|assumption].
  - reflexivity.
  - rewrite fold_eq. unfold WalkFold.body. cbn [fold_neg is_lit n_op maybe]. rewrite IH. rewrite (fold_same (map node_ty l)); [reflexivity|]. induction l; constructor; [apply IH|assumption].
  - rewrite fold_eq. unfold WalkFold.body. cbn [fold_neg is_lit n_op maybe]. rewrite (fold_same (map node_ty l)); [reflexivity|]. induction l; constructor; [apply IH|assumption].
  - rewrite fold_eq. unfold WalkFold.body. cbn [fold_neg is_lit n_op must]. rewrite IH. reflexivity.
Qed.
Lemma fold_tys l : fold_walk_all (map node_ty l) = Some (map node_ty l, []).
Proof. apply fold_same. apply Forall_forall. intros n Hn. apply in_map_iff in Hn as (t & <- & _). apply fold_ty. Qed.
Lemma fold_param p : fold_walk (node_param p) = Some (node_param p, []).
Proof. unfold node_param. rewrite fold_eq. unfold WalkFold.body. cbn [fold_neg is_lit n_op maybe]. now rewrite fold_ty. Qed.
Lemma fold_params l : fold_walk_all (map node_param l) = Some (map node_param l, []).
Proof. apply fold_same. apply Forall_forall. intros n Hn. apply in_map_iff in Hn as (t & <- & _). apply fold_param. Qed.
Lemma all_map {A B C} (f : A -> B) (g : B -> option C) (h : A -> C) l : Forall (fun x => g (f x) = Some (h x)) l -> all g (map f l) = Some (map h l).
Proof. unfold all. induction 1 as [|x l H _ IH]; [reflexivity|]. cbn. now rewrite H, IH. Qed.
Lemma texp_ty : forall t, texp_of (node_ty t) = Some (mean_ty t).
Proof.
  fix IH 1. intros [x [l|]|l [r|]|t]; cbn [node_ty texp_of mean_ty].
  - rewrite (all_map node_ty texp_of mean_ty); [reflexivity|]. induction l; constructor; [apply IH|assumption].
  - reflexivity.
  - rewrite (all_map node_ty texp_of mean_ty); [|induction l; constructor; [apply IH|assumption]]. cbn [if_any]. now rewrite IH.
  - rewrite (all_map node_ty texp_of mean_ty); [reflexivity|]. induction l; constructor; [apply IH|assumption].
  - cbn [within]. now rewrite IH.
Qed.
Lemma texp_tys l : all texp_of (map node_ty l) = Some (map mean_ty l).
Proof. apply all_map, Forall_forall. intros; apply texp_ty. Qed.
Lemma param_mean p : param_of (node_param p) = Some (mean_param p).
Proof. unfold param_of, node_param. cbn [n_left within]. now rewrite texp_ty. Qed.
Lemma params_mean l : all param_of (map node_param l) = Some (map mean_param l).
Proof. apply all_map, Forall_forall. intros; apply param_mean. Qed.
Lemma result_mean r : maybe (option_map node_ty r) = Some (option_map node_ty r, []) /\ if_any texp_of (option_map node_ty r) = Some (option_map mean_ty r).
Proof. destruct r as [t|]; [|now split]. cbn. now rewrite fold_ty, texp_ty. Qed.

(** Integer literals. *)
Lemma int_node : forall e, match int_text e with Some v => is_int (node_of e) = true /\ n_token (node_of e) = bare (KInteger, v) | None => is_int (node_of e) = false end.
Proof.
  fix IH 1. intros [x|[v|v| |]|e|[]|o a b|c a b|a i|f args|f ts args|es|[x [l|]|l r|t]|tps ps r [l|e]]; try reflexivity; cbn [int_text node_of]; try apply IH.
  - now split.
  - destruct o; reflexivity.
Qed.

Notation rd_expr := (fun m => as_expr (part_of m)).
Notation rd_stmt := (fun m => as_stmt (part_of m)).
Lemma part_int a v r ss ps : taken (overflow (Node a OpLit (bare (KInteger, v)) None r ss ps)) (part_of (Node a OpLit (bare (KInteger, v)) None r ss ps)) =
  option_map (fun z => PExpr (RLit (CheckModel.LInt z))) (LitModel.literal v).
Proof.
  change (taken (check_overflow v) (option_map (fun l => PExpr (RLit l)) (option_map CheckModel.LInt (LitModel.literal v))) = option_map (fun z => PExpr (RLit (CheckModel.LInt z))) (LitModel.literal v)).
  unfold LitModel.literal, check_overflow. destruct (parse_int v); reflexivity.
Qed.
Lemma read_part n e : reads part_of n (option_map PExpr e) -> reads rd_expr n e.
Proof. intros (n' & es & F & H). exists n', es. split; [exact F|]. destruct es; cbn in *; [rewrite H|]; destruct e; try discriminate H; reflexivity. Qed.
Ltac fl := rewrite fold_eq; unfold WalkFold.body; cbn [fold_neg is_lit n_op must maybe cat2].
Ltac cases H := let T := type of H in match T with taken ?es _ = ?g => match g with option_map _ ?x => destruct x | _ => destruct g end; destruct es; try discriminate H; cbn [taken] in H end.

Lemma reads_expr : forall e, reads part_of (node_of e) (option_map PExpr (mean e))
with reads_stmt : forall s, reads rd_stmt (node_stmt s) (mean_stmt s)
with reads_branch : forall r, exists r' es, maybe (node_branch r) = Some (r', es) /\
  taken es match r' with Some m => option_map Some (as_stmt (part_of m)) | None => Some None end = mean_branch r.
Proof.
  - intros [x|li|e|u e|o a b|c a b|a i|f args|f ts args|es|t|tps ps r b]; cbn [node_of mean].
    + exists (mk OpIdentifier (KIdentifier, x)), []. now split.
    + exists (mk OpLit (show_lit li)). destruct li as [v|v| |]; cbn [mean_lit].
      * exists (check_overflow v). split; [reflexivity|]. etransitivity; [apply (part_int no_attrs v None [] [])|]. destruct (LitModel.literal v); reflexivity.
      * exists []. split; [reflexivity|]. change (option_map (fun l => PExpr (RLit l)) (option_map (fun s => CheckModel.LStr (str s)) (StrModel.unquote v)) = option_map PExpr (option_map RLit (option_map (fun s => CheckModel.LStr (str s)) (StrModel.unquote v)))). destruct (StrModel.unquote v); reflexivity.
      * exists []. now split.
      * exists []. now split.
    + apply reads_expr.
    + pose proof (reads_expr e) as (n' & es & F & H). destruct u; cbn [un_op mean].
      * eexists _, es. split; [fl; rewrite F; reflexivity|]. cases H; cbn; rewrite ?H; reflexivity.
      * eexists _, es. split; [fl; rewrite F; reflexivity|]. cases H; cbn; rewrite ?H; reflexivity.
      * pose proof (int_node e) as I. destruct (int_text e) as [v|].
        -- destruct I as [I1 I2]. eexists _, _. split; [rewrite fold_eq; unfold WalkFold.body; cbn [fold_neg]; rewrite I1, I2; cbn [is_lit n_op]; reflexivity|].
           etransitivity; [apply (part_int no_attrs (45%Z :: v) None [] [])|]. destruct (LitModel.literal (45%Z :: v)); reflexivity.
        -- eexists _, es. split; [rewrite fold_eq; unfold WalkFold.body; cbn [fold_neg]; rewrite I; cbn [is_lit n_op must]; rewrite F; reflexivity|].
           cases H; cbn; rewrite ?H; reflexivity.
    + pose proof (reads_expr a) as (n1 & e1 & F1 & H1). pose proof (reads_expr b) as (n2 & e2 & F2 & H2).
      eexists (Node no_attrs (bin_op o) _ (Some n1) (Some n2) [] []), (e1 ++ e2). split; [rewrite fold_eq; unfold WalkFold.body; destruct o; cbn [bin_op fold_neg is_lit n_op must cat2]; rewrite F1, F2; reflexivity|].
      cases H1; cases H2; destruct o; cbn; rewrite ?H1, ?H2; reflexivity.
    + pose proof (reads_expr c) as (n1 & e1 & F1 & H1). pose proof (reads_expr a) as (n2 & e2 & F2 & H2). pose proof (reads_expr b) as (n3 & e3 & F3 & H3).
      eexists _, _. split; [fl; cbn [fold_walk_all]; rewrite F1, F2, F3; reflexivity|].
      cases H1; cases H2; cases H3; cbn; rewrite ?H1, ?H2, ?H3; reflexivity.
    + pose proof (reads_expr a) as (n1 & e1 & F1 & H1). pose proof (reads_expr i) as (n2 & e2 & F2 & H2).
      eexists _, _. split; [fl; rewrite F1, F2; reflexivity|]. cases H1; cases H2; cbn; rewrite ?H1, ?H2; reflexivity.
    + pose proof (reads_expr f) as (n1 & e1 & F1 & H1).
      assert (L : reads_all rd_expr (map node_of args) (map mean args)) by (induction args; [apply reads_nil|apply reads_cons; [apply read_part, reads_expr|assumption]]). destruct L as (ns & e2 & F2 & H2).
      eexists _, _. split; [fl; rewrite F1, F2; reflexivity|]. cases H1; cases H2; cbn; rewrite ?H1, ?H2; reflexivity.
    + pose proof (reads_expr f) as (n1 & e1 & F1 & H1).
      assert (L : reads_all rd_expr (map node_of args) (map mean args)) by (induction args; [apply reads_nil|apply reads_cons; [apply read_part, reads_expr|assumption]]). destruct L as (ns & e2 & F2 & H2).
      eexists _, _. split; [fl; rewrite F1, F2, fold_tys; reflexivity|]. cases H1; cases H2; cbn [app taken part_of]; rewrite ?H1, ?H2, ?texp_tys; reflexivity.
    + assert (L : reads_all rd_expr (map node_of es) (map mean es)) by (induction es; [apply reads_nil|apply reads_cons; [apply read_part, reads_expr|assumption]]). destruct L as (ns & e2 & F2 & H2).
      eexists _, _. split; [fl; rewrite F2; reflexivity|]. cases H2; cbn; rewrite ?H2; reflexivity.
    + exists (node_ty t), []. split; [apply fold_ty|]. cbn [taken]. pose proof (texp_ty t) as T. destruct t; cbn [node_ty part_of] in T |- *; now rewrite T.
    + unfold fn_node. destruct (result_mean r) as [M1 M2].
      assert (N : maybe (option_map node_tys tps) = Some (option_map node_tys tps, [])).
      { destruct tps as [l|]; [|reflexivity]. cbn [option_map maybe]. unfold node_tys. rewrite fold_eq. unfold WalkFold.body. cbn [fold_neg is_lit n_op]. now rewrite fold_tys. }
      destruct b as [l|e]; cbn [block_op nodes_body].
      * assert (L : reads_all rd_stmt (map node_stmt l) (map mean_stmt l)) by (induction l; [apply reads_nil|apply reads_cons; [apply reads_stmt|assumption]]). destruct L as (ns & e2 & F2 & H2).
        eexists _, _. split; [fl; rewrite M1, N, F2, fold_params; reflexivity|]. cbn [app]. rewrite app_nil_r. destruct tps as [q|]; [destruct e2; reflexivity|]. cases H2; cbn [taken part_of option_map]; rewrite ?params_mean, ?M2, ?H2; reflexivity.
      * pose proof (reads_expr e) as (n1 & e1 & F1 & H1).
        eexists _, _. split; [fl; cbn [fold_walk_all]; rewrite M1, N, F1, fold_params; reflexivity|]. cbn [app]. rewrite !app_nil_r. destruct tps as [q|]; [destruct e1; reflexivity|]. cases H1; cbn [taken part_of option_map map all_some as_expr]; rewrite ?params_mean, ?M2, ?H1; reflexivity.
  - assert (B : forall l, reads_all rd_stmt (map node_stmt l) (map mean_stmt l)) by (induction l; [apply reads_nil|apply reads_cons; [apply reads_stmt|assumption]]).
    intros [[e|]|c l|x e [e2|] l|c l r|e cs|a e|a e|e]; cbn [node_stmt mean_stmt].
    + pose proof (reads_expr e) as (n1 & e1 & F1 & H1). eexists _, _. split; [fl; rewrite F1; reflexivity|]. cases H1; cbn; rewrite ?H1; reflexivity.
    + eexists _, _. split; reflexivity.
    + pose proof (reads_expr c) as (n1 & e1 & F1 & H1). destruct (B l) as (ns & e2 & F2 & H2).
      eexists _, _. split; [fl; rewrite F1, F2; reflexivity|]. cases H1; cases H2; cbn; rewrite ?H1, ?H2; reflexivity.
    + pose proof (reads_expr e) as (n1 & e1 & F1 & H1). pose proof (reads_expr e2) as (n3 & e3 & F3 & H3). destruct (B l) as (ns & e4 & F2 & H2).
      eexists _, _. split; [fl; rewrite F2; rewrite fold_eq; unfold WalkFold.body; cbn [fold_neg is_lit n_op must cat2]; rewrite F1, F3; reflexivity|].
      cases H1; cases H3; cases H2; cbn; rewrite ?H1, ?H2, ?H3; reflexivity.
    + pose proof (reads_expr e) as (n1 & e1 & F1 & H1). destruct (B l) as (ns & e4 & F2 & H2).
      eexists _, _. split; [fl; rewrite F1, F2; reflexivity|]. cases H1; cases H2; cbn; rewrite ?H1, ?H2; reflexivity.
    + pose proof (reads_expr c) as (n1 & e1 & F1 & H1). destruct (B l) as (ns & e4 & F2 & H2). destruct (reads_branch r) as (r' & e3 & F3 & H3).
      eexists _, _. split; [fl; rewrite F1, F2, F3; reflexivity|]. cases H1; cases H2; cases H3; cbn; rewrite ?H1, ?H2, ?H3; reflexivity.
    + pose proof (reads_expr e) as (n1 & e1 & F1 & H1).
      match goal with |- reads _ (Node _ _ _ _ _ (map ?nc cs) _) (both _ _ (all_some (map ?mc cs))) =>
        assert (L : reads_all (fun m => as_case (part_of m)) (map nc cs) (map mc cs)) end.
      { induction cs as [|[[x xs] l] cs IH]; [apply reads_nil|apply reads_cons; [|exact IH]]. clear IH. cbn [fst snd].
        assert (BL : reads_all rd_stmt (map node_stmt l) (map mean_stmt l)) by (induction l; [apply reads_nil|apply reads_cons; [apply reads_stmt|assumption]]).
        destruct BL as (ns & e4 & F2 & H2).
        assert (I : fold_walk_all (map (fun i => mk OpIdentifier (KIdentifier, i)) xs) = Some (map (fun i => mk OpIdentifier (KIdentifier, i)) xs, [])).
        { apply fold_same. apply Forall_forall. intros m Hm. apply in_map_iff in Hm as (i & <- & _). reflexivity. }
        eexists _, _. split; [fl; rewrite I, F2; reflexivity|]. cases H2; cbn [app taken part_of]; try reflexivity; rewrite H2; rewrite (all_map _ name_of str); try reflexivity; apply Forall_forall; reflexivity. }
      destruct L as (ns & e2 & F2 & H2). eexists _, _. split; [fl; rewrite F1, F2; reflexivity|]. cases H1; cases H2; cbn; rewrite ?H1, ?H2; reflexivity.
    + pose proof (reads_expr a) as (n1 & e1 & F1 & H1). pose proof (reads_expr e) as (n2 & e2 & F2 & H2).
      eexists _, _. split; [fl; rewrite F1, F2; reflexivity|]. cases H1; cases H2; cbn; rewrite ?H1, ?H2; reflexivity.
    + pose proof (reads_expr a) as (n1 & e1 & F1 & H1). pose proof (reads_expr e) as (n2 & e2 & F2 & H2).
      eexists _, _. split; [fl; rewrite F1, F2; reflexivity|]. cases H1; cases H2; cbn; rewrite ?H1, ?H2; reflexivity.
    + pose proof (reads_expr e) as (n1 & e1 & F1 & H1). exists n1, e1. split; [exact F1|]. cases H1; cbn; rewrite ?H1; reflexivity.
  - assert (B : forall l, reads_all rd_stmt (map node_stmt l) (map mean_stmt l)) by (induction l; [apply reads_nil|apply reads_cons; [apply reads_stmt|assumption]]).
    intros [|c l r|l]; cbn [node_branch mean_branch maybe].
    + exists None, []. now split.
    + pose proof (reads_expr c) as (n1 & e1 & F1 & H1). destruct (B l) as (ns & e4 & F2 & H2). destruct (reads_branch r) as (r' & e3 & F3 & H3).
      eexists _, _. split; [fl; rewrite F1, F2, F3; reflexivity|]. cases H1; cases H2; cases H3; cbn; rewrite ?H1, ?H2, ?H3; reflexivity.
    + destruct (B l) as (ns & e4 & F2 & H2). eexists _, _. split; [fl; rewrite F2; reflexivity|]. cases H2; cbn; rewrite ?H2; reflexivity.
Qed.

(* ----------------------------------------------------------------------- declarations *)

Lemma tparam_ty t : tparam_of (node_ty t) = mean_tparam t.
Proof. destruct t as [x a|ps r|t]; reflexivity. Qed.
Lemma tparams_mean l : all tparam_of (map node_ty l) = all mean_tparam l.
Proof. unfold all. induction l as [|t l IH]; [reflexivity|]. cbn [map all_some]. now rewrite tparam_ty, IH. Qed.
Lemma tys_mean o : all tparam_of (tys o) = mean_tparams o.
Proof. destruct o as [l|]; [apply tparams_mean|reflexivity]. Qed.
Lemma fn_mean a o w tps ps r ns b :
  fn_of (fn_node a o (KIdentifier, w) tps ps r ns) b = option_map (fun ts => DeclModel.DFn (str w) ts (map mean_param ps) (option_map mean_ty r) b) (mean_tparams tps).
Proof.
  unfold fn_of, fn_node. cbn [n_right n_params n_left n_token]. destruct (result_mean r) as [_ M]. rewrite M, params_mean.
  destruct tps as [l|]; cbn [option_map within mean_tparams]; [|reflexivity].
  unfold node_tys. cbn [n_params]. rewrite tparams_mean. destruct (all mean_tparam l); reflexivity.
Qed.
Lemma fold_fn a o w tps ps r ns ns' es : o = OpBlockFn \/ o = OpExprFn \/ o = OpExternFn -> fold_walk_all ns = Some (ns', es) ->
  fold_walk (fn_node a o w tps ps r ns) = Some (fn_node a o w tps ps r ns', es).
Proof.
  intros O F. unfold fn_node. destruct (result_mean r) as [M _]. rewrite fold_eq. unfold WalkFold.body.
  assert (N : maybe (option_map node_tys tps) = Some (option_map node_tys tps, [])).
  { destruct tps as [l|]; [|reflexivity]. cbn [option_map maybe]. unfold node_tys. rewrite fold_eq. unfold WalkFold.body. cbn [fold_neg is_lit n_op]. now rewrite fold_tys. }
  destruct O as [->|[->| ->]]; cbn [fold_neg is_lit n_op]; rewrite M, N, F, fold_params; cbn [app]; now rewrite app_nil_r.
Qed.
Section Names.
Variable attr_name : list Z -> option bool.
Lemma reads_decl d : reads decl_of (node_decl attr_name d) (mean_decl d).
Proof.
  destruct d as [at' x tps ps r [[l|e]|]|at' x tps fs|at' x tps cs]; cbn [node_decl mean_decl].
  - assert (B : reads_all rd_stmt (map node_stmt l) (map mean_stmt l)) by (induction l; [apply reads_nil|apply reads_cons; [apply reads_stmt|assumption]]). destruct B as (ns & es & F & H).
    eexists _, es. split; [apply fold_fn; [now left|exact F]|]. cbn [mean_body].
    cases H; cbn [taken]; try unfold decl_of; cbn [fn_node n_op n_stmts block_op]; try unfold all at 1; rewrite ?H; cbn [within]; rewrite ?fn_mean; destruct (mean_tparams tps); reflexivity.
  - pose proof (reads_expr e) as (n1 & e1 & F1 & H1). eexists _, (e1 ++ []). split; [apply fold_fn; [now right; left|cbn; now rewrite F1]|]. rewrite app_nil_r. cbn [mean_body].
    cases H1; cbn [taken]; try unfold decl_of; cbn [fn_node n_op n_stmts block_op]; try unfold all at 1; cbn [map all_some]; rewrite ?H1; cbn [option_map as_expr]; rewrite ?fn_mean; destruct (mean_tparams tps); reflexivity.
  - eexists _, []. split; [apply fold_fn; [now right; right|reflexivity]|]. cbn [taken mean_body]. unfold decl_of. cbn [fn_node n_op]. rewrite fn_mean. destruct (mean_tparams tps); reflexivity.
  - eexists _, []. split; [fl; now rewrite fold_params|]. cbn [taken]. unfold decl_of. cbn [n_op n_params n_stmts]. rewrite tys_mean, params_mean. destruct (mean_tparams tps); reflexivity.
  - eexists _, []. split.
    + fl. rewrite fold_same; [reflexivity|]. apply Forall_forall. intros m Hm. apply in_map_iff in Hm as (c & <- & _). fl. rewrite fold_params. reflexivity.
    + cbn [taken]. unfold decl_of. cbn [n_op n_params n_stmts]. rewrite tys_mean. rewrite (all_map _ member_of (fun c => (str (fst c), map mean_param (snd c)))); [destruct (mean_tparams tps); reflexivity|].
      apply Forall_forall. intros c _. unfold member_of. cbn [n_params]. now rewrite params_mean.
Qed.
Lemma reads_decls p : reads_all decl_of (map (node_decl attr_name) p) (map mean_decl p).
Proof. induction p; [apply reads_nil|apply reads_cons; [apply reads_decl|assumption]]. Qed.
Lemma decls_erase ms : all_some (map decl_of (map erase ms)) = all decl_of ms.
Proof. unfold all. induction ms as [|m ms IH]; [reflexivity|]. cbn [map all_some]. now rewrite decl_erase, IH. Qed.

(** What the nodes of a program are read as: what it means, and nothing else. *)
Lemma program_read ns p ds : map erase ns = map (node_decl attr_name) p -> decls_of ns = Some (inl ds) <-> mean_program p = Some ds.
Proof.
  intros E. destruct (reads_decls p) as (ns' & es & F & H). unfold mean_program, all. rewrite <- H. clear H.
  rewrite <- E, folds_erase in F by (apply Forall_forall; intros; apply fold_erase). unfold decls_of.
  destruct (fold_walk_all ns) as [[ms e]|]; [|discriminate]. injection F as <- ->. rewrite decls_erase.
  destruct es; cbn [taken].
  - destruct (all decl_of ms); cbn; split; intros X; try discriminate X; injection X as ->; reflexivity.
  - split; discriminate.
Qed.
Lemma program_refused ns p es : map erase ns = map (node_decl attr_name) p -> decls_of ns = Some (inr es) -> es <> [] /\ mean_program p = None.
Proof.
  intros E. destruct (reads_decls p) as (ns' & es' & F & H). unfold mean_program, all. rewrite <- H. clear H.
  rewrite <- E, folds_erase in F by (apply Forall_forall; intros; apply fold_erase). unfold decls_of.
  destruct (fold_walk_all ns) as [[ms e]|]; [|discriminate]. injection F as <- ->. destruct es'; cbn [taken]; [destruct (all decl_of ms); discriminate|].
  intros X. injection X as <-. now split.
Qed.
End Names.
