(** A function moved to the top level does what it did where it was written. *)
From Coq Require Import ZArith List Bool Arith Lia Permutation.
From Verif Require Import ParseModel ClosModel ClosSpec ClosCheck.
Import ListNotations.
Open Scope nat_scope.

Ltac walks := change has_left with walks_left in *; change has_right with walks_right in *; change has_stmts with walks_stmts in *.
Lemma in_pick {A} o (l r : option A) ss ps k :
  (walks_left o = true /\ In k (o2l l)) \/ (walks_right o = true /\ In k (o2l r)) \/ (walks_stmts o = true /\ In k ss) \/ (walks_params o = true /\ In k ps) -> In k (pick o l r ss ps).
Proof. destruct o; cbn; rewrite ?in_app_iff; intuition discriminate. Qed.

(** The fields of the environment. *)
Lemma fields_nth base vs : forall i k x, nth_error vs k = Some x -> nth_error (fields base i vs) k = Some (Sym (base + (i + k)) (s_name x) (8 * (i + k)) false false false).
Proof.
  induction vs as [|v vs IH]; intros i k x; [destruct k; discriminate|]. destruct k as [|k]; cbn [nth_error fields].
  - intros [= ->]. now rewrite Nat.add_0_r.
  - intros H. rewrite (IH (S i) k x H). now replace (S i + k) with (i + S k) by lia.
Qed.
Lemma field_found base vs : NoDup (map s_name vs) -> forall i k x, nth_error vs k = Some x -> get_field (s_name x) (fields base i vs) = Some (Sym (base + (i + k)) (s_name x) (8 * (i + k)) false false false).
Proof.
  induction vs as [|v vs IH]; intros Hn i k x; [destruct k; discriminate|]. cbn [map] in Hn. inversion Hn as [|? ? H1 H2]; subst.
  unfold get_field. cbn [fields find s_name]. destruct k as [|k]; cbn [nth_error].
  - intros [= ->]. destruct (list_eq_dec Z.eq_dec (s_name x) (s_name x)); [|congruence]. now rewrite Nat.add_0_r.
  - intros H. destruct (list_eq_dec Z.eq_dec (s_name v) (s_name x)) as [E|E].
    + exfalso. apply H1. rewrite E. apply in_map. now apply nth_error_In in H.
    + specialize (IH H2 (S i) k x H). unfold get_field in IH. rewrite IH. now replace (S i + k) with (i + S k) by lia.
Qed.

Section Sim.
Context {V W : Type} (P : prims V W) (fn : tree) (env : sym) (base : nat) (vs : list sym).
Hypothesis Hnames : NoDup (map s_name vs).
Hypothesis Hvs : forall x, In x vs -> ~ own fn x.
Notation fs := (fields base 0 vs).
Notation rw := (rewrite_vars env fs vs).

(** The trees of the body. *)
Definition good (t : tree) : Prop := forall m cs, below m cs t -> node_ok fn m /\ is_fn (t_op m) = false /\
  forall x, is_ident m x -> x <> env /\ (s_stack x = true -> own fn x \/ In x vs).
Lemma good_kid t k : good t -> In k (kids t) -> good k.
Proof. intros H Hk m cs Hm. destruct (kid_below t k m cs Hk Hm) as (cs1 & H1). now apply (H m cs1). Qed.
Lemma good_here t : good t -> node_ok fn t /\ is_fn (t_op t) = false /\ forall x, is_ident t x -> x <> env /\ (s_stack x = true -> own fn x \/ In x vs).
Proof. intros H. apply (H t (own_scope t)). constructor. Qed.
Lemma good_left o y l r ss ps sc k : good (Tree o y l r ss ps sc) -> l = Some k -> good k.
Proof.
  intros H ->. apply good_kid with (1 := H). apply good_here in H. destruct H as [(H1 & _) _]. cbn in *. walks. apply in_pick. left. split; [|now left]. destruct (walks_left o); [reflexivity|]. discriminate (H1 eq_refl).
Qed.
Lemma good_right o y l r ss ps sc k : good (Tree o y l r ss ps sc) -> r = Some k -> good k.
Proof.
  intros H ->. apply good_kid with (1 := H). apply good_here in H. destruct H as [(_ & H1 & _) _]. cbn in *. walks. apply in_pick. right. left. split; [|now left]. destruct (walks_right o); [reflexivity|]. discriminate (H1 eq_refl).
Qed.
Lemma good_stmt o y l r ss ps sc k : good (Tree o y l r ss ps sc) -> In k ss -> good k.
Proof.
  intros H Hk. apply good_kid with (1 := H). apply good_here in H. destruct H as [(_ & _ & H1 & _) _]. cbn in *. walks. apply in_pick. right. right. left. split; [|exact Hk]. destruct (walks_stmts o); [reflexivity|]. rewrite (H1 eq_refl) in Hk. destruct Hk.
Qed.

(** What the rewrite makes of a node. *)
Lemma rw_node o y l r ss ps sc : good (Tree o y l r ss ps sc) -> o <> OpIdentifier ->
  rw (Tree o y l r ss ps sc) = Tree o y (option_map rw l) (option_map rw r) (map rw ss) (if walks_params o then map rw ps else ps) sc.
Proof.
  intros H Ho. apply good_here in H. destruct H as [(H1 & H2 & H3 & _) _]. cbn [t_op t_left t_right t_stmts] in *. walks. cbn [rewrite_vars].
  replace (if walks_left o then option_map rw l else l) with (option_map rw l) by (destruct (walks_left o); [reflexivity|]; now rewrite (H1 eq_refl)).
  replace (if walks_right o then option_map rw r else r) with (option_map rw r) by (destruct (walks_right o); [reflexivity|]; now rewrite (H2 eq_refl)).
  replace (if walks_stmts o then map rw ss else ss) with (map rw ss) by (destruct (walks_stmts o); [reflexivity|]; now rewrite (H3 eq_refl)).
  destruct o; try reflexivity. now destruct Ho.
Qed.
Lemma rw_captured x l r ss ps sc : In x vs -> exists i f ps1, nth_error vs i = Some x /\ s_addr f / 8 = i /\
  rw (Tree OpIdentifier (Some x) l r ss ps sc) = Tree OpDot (Some f) (Some (ident env)) (Some (ident f)) [] ps1 sc.
Proof.
  intros H. destruct (In_nth_error _ _ H) as (i & Hi). exists i. eexists _, ps. split; [exact Hi|]. cbn [rewrite_vars]. rewrite (proj2 (mem_in x vs) H), (field_found base vs Hnames 0 i x Hi). split; [|reflexivity].
  cbn [s_addr]. rewrite (Nat.mul_comm 8), Nat.div_mul; [reflexivity|discriminate].
Qed.
Lemma rw_kept x l r ss ps sc : ~ In x vs -> exists l1, rw (Tree OpIdentifier (Some x) l r ss ps sc) = Tree OpIdentifier (Some x) l1 r ss ps sc.
Proof. intros H. eexists. cbn [rewrite_vars]. destruct (mem x vs) eqn:E; [apply mem_in in E; contradiction|]. reflexivity. Qed.

(** The frames agree. *)
Record agree (s s1 : state) : Prop := Agree {
  ag_world : world s = world s1;
  ag_own : forall x, own fn x -> s_stack x = true -> vars s x = vars s1 x;
  ag_env : forall i, nth_error (env_of s1) i = option_map (fun x => value P x s) (nth_error vs i)
}.
Definition same {A} (a b : option (A * @state V W)) : Prop :=
  match a, b with None, None => True | Some (x, s), Some (y, s1) => x = y /\ agree s s1 | _, _ => False end.
Lemma same_bind {A B} (a b : option (A * state)) (f g : A -> state -> option (B * state)) :
  same a b -> (forall x s s1, agree s s1 -> same (f x s) (g x s1)) -> same (bind a f) (bind b g).
Proof. destruct a as [[x s]|], b as [[y s1]|]; cbn; try contradiction; auto. intros [<- H] K. now apply K. Qed.
Lemma agree_world s s1 w : agree s s1 -> agree (set_world w s) (set_world w s1).
Proof. intros [A B C]. split; [reflexivity|exact B|exact C]. Qed.
Lemma value_set y v s x : x <> y -> value P x (set_var y v s) = value P x s.
Proof. intros H. unfold value, set_var. cbn. destruct (sym_eqb x y) eqn:E; [apply sym_eqb_eq in E; contradiction|reflexivity]. Qed.
Lemma agree_own s s1 y v : agree s s1 -> own fn y -> agree (set_var y v s) (set_var y v s1).
Proof.
  intros [A B C] Hy. split; [exact A| |].
  - intros x Hx Hs. cbn. destruct (sym_eqb x y); [reflexivity|auto].
  - intros i. cbn [env_of set_var]. rewrite C. destruct (nth_error vs i) as [x|] eqn:E; [|reflexivity]. cbn. f_equal. symmetry. apply value_set. intros ->. apply nth_error_In in E. now apply (Hvs y).
Qed.
Lemma nth_set {A} i j (v : A) l : i < List.length l -> nth_error (set_nth i v l) j = if i =? j then Some v else nth_error l j.
Proof. revert i j. induction l as [|x l IH]; intros i j H; [cbn in H; lia|]. destruct i, j; cbn; try reflexivity. apply IH. cbn in H. lia. Qed.
Lemma agree_captured s s1 i y v : agree s s1 -> nth_error vs i = Some y -> s_stack y = true -> i < List.length (env_of s1) /\ agree (set_var y v s) (set_env i v s1).
Proof.
  intros [A B C] Hy Hs.
  assert (Hi : i < List.length (env_of s1)) by (apply nth_error_Some; rewrite C, Hy; discriminate). split; [exact Hi|]. split; [exact A| |].
  - intros x Hx Hs1. cbn. destruct (sym_eqb x y) eqn:E; [|auto]. apply sym_eqb_eq in E. subst. apply nth_error_In in Hy. now destruct (Hvs y).
  - intros j. cbn [env_of set_env]. rewrite nth_set by exact Hi. destruct (Nat.eqb_spec i j) as [<-|E].
    + rewrite Hy. cbn. unfold value. rewrite Hs. cbn. now rewrite (proj2 (sym_eqb_eq y y) eq_refl).
    + rewrite C. destruct (nth_error vs j) as [x|] eqn:Ex; [|reflexivity]. cbn. f_equal. symmetry. apply value_set. intros ->. apply E.
      apply NoDup_map_inv in Hnames. apply (proj1 (NoDup_nth_error vs) Hnames); [apply nth_error_Some; congruence|congruence].
Qed.
Lemma value_own s s1 x : agree s s1 -> (s_stack x = true -> own fn x) -> value P x s = value P x s1.
Proof. intros [A B C] H. unfold value. destruct (s_stack x) eqn:E; auto. Qed.

Lemma sim_evals n ts : (forall t s s1, In t ts -> agree s s1 -> same (eval P env n t s) (eval P env n (rw t) s1)) ->
  forall s s1, agree s s1 -> same (evals (eval P env n) ts s) (evals (eval P env n) (map rw ts) s1).
Proof.
  intros H. induction ts as [|t ts IH]; intros s s1 A; [now split|]. cbn [evals map]. apply same_bind; [apply H; [now left|exact A]|]. intros v s2 s3 A1. apply same_bind; [apply IH; [|exact A1]; intros; apply H; auto; now right|].
  intros vs1 s4 s5 A2. now split.
Qed.
Lemma not_env t : good t -> env_field env t = None.
Proof.
  intros H. destruct t as [o y l r ss ps sc]. destruct o; try reflexivity. destruct l as [[[] [e|] ? ? ? ? ?]|]; try reflexivity. cbn. destruct r as [[[] [f|] ? ? ? ? ?]|]; try reflexivity.
  destruct (sym_eqb e env) eqn:E; [|reflexivity]. apply sym_eqb_eq in E. apply good_left with (2 := eq_refl) in H. apply good_here in H. destruct H as (_ & _ & H). destruct (H e) as [H1 _]; [repeat eexists|]. now destruct H1.
Qed.
Lemma not_env_rw y l r ss ps sc ps1 : good (Tree OpDot y l r ss ps sc) -> env_field env (Tree OpDot y (option_map rw l) (option_map rw r) (map rw ss) ps1 sc) = None.
Proof.
  intros H. destruct l as [l|]; [|reflexivity]. apply good_left with (2 := eq_refl) in H. destruct l as [o1 y1 l1 r1 ss1 ps2 sc1].
  assert (D : o1 = OpIdentifier \/ o1 <> OpIdentifier) by (destruct o1; (now left) || (right; discriminate)). destruct D as [-> | D].
  - destruct y1 as [x|]; [|reflexivity]. assert (Dx : In x vs \/ ~ In x vs) by (destruct (mem x vs) eqn:E; [left; now apply mem_in|right; intros Hx; apply mem_in in Hx; congruence]). destruct Dx as [Dx|Dx].
    + destruct (rw_captured x l1 r1 ss1 ps2 sc1 Dx) as (i & f & ps3 & _ & _ & E). cbn [option_map]. rewrite E. reflexivity.
    + destruct (rw_kept x l1 r1 ss1 ps2 sc1 Dx) as (l2 & E). cbn [option_map]. rewrite E. cbn. apply good_here in H. destruct H as (_ & _ & H). destruct (H x) as [H1 _]; [repeat eexists|].
      destruct r as [r|]; [|reflexivity]. cbn. destruct (rw r) as [[] [?|] ? ? ? ? ?]; try reflexivity. destruct (sym_eqb x env) eqn:E1; [|reflexivity]. now apply sym_eqb_eq in E1.
  - cbn [option_map]. rewrite rw_node; auto. destruct o1; try reflexivity. now destruct D.
Qed.

Lemma env_field_here f ps sc : env_field env (Tree OpDot (Some f) (Some (ident env)) (Some (ident f)) [] ps sc) = Some (s_addr f / 8).
Proof. unfold env_field, ident. now rewrite (proj2 (sym_eqb_eq env env) eq_refl). Qed.
Lemma eval_dot n y l r ss ps sc s : eval P env (S n) (Tree OpDot y l r ss ps sc) s =
  match env_field env (Tree OpDot y l r ss ps sc) with
  | Some i => match nth_error (env_of s) i with Some v => Some (v, s) | None => None end
  | None => bind (evals (eval P env n) (o2l l ++ o2l r ++ ss) s) (fun vs0 s2 => match prim P OpDot y vs0 (world s2) with Some (v, w) => Some (v, set_world w s2) | None => None end)
  end.
Proof. reflexivity. Qed.
Lemma sim_eval : forall n t s s1, good t -> agree s s1 -> same (eval P env n t s) (eval P env n (rw t) s1).
Proof.
  induction n as [|n IH]; intros t s s1 G A; [exact I|]. destruct t as [o y l r ss ps sc].
  assert (D : o = OpIdentifier \/ o <> OpIdentifier) by (destruct o; (now left) || (right; discriminate)). destruct D as [-> | D].
  { destruct y as [x|]; [|exact I]. assert (Dx : In x vs \/ ~ In x vs) by (destruct (mem x vs) eqn:E; [left; now apply mem_in|right; intros Hx; apply mem_in in Hx; congruence]). destruct Dx as [Dx|Dx].
    - destruct (rw_captured x l r ss ps sc Dx) as (i & f & ps3 & Hi & Hf & E). rewrite E, eval_dot, env_field_here, Hf, (ag_env _ _ A), Hi. cbn. now split.
    - destruct (rw_kept x l r ss ps sc Dx) as (l2 & E). rewrite E. cbn. split; [|exact A]. apply value_own; [exact A|]. intros Hs. apply good_here in G. destruct G as (_ & _ & G). destruct (G x) as [_ [H|H]]; [repeat eexists|exact Hs|exact H|contradiction]. }
  rewrite rw_node by auto.
  assert (AP : same (bind (evals (eval P env n) (o2l l ++ o2l r ++ ss) s) (fun vs0 s2 => match prim P o y vs0 (world s2) with Some (v, w) => Some (v, set_world w s2) | None => None end))
                    (bind (evals (eval P env n) (o2l (option_map rw l) ++ o2l (option_map rw r) ++ map rw ss) s1) (fun vs0 s2 => match prim P o y vs0 (world s2) with Some (v, w) => Some (v, set_world w s2) | None => None end))).
  { rewrite !o2l_map, <- !map_app. apply same_bind.
    - apply sim_evals; [|exact A]. intros t s2 s3 Ht A1. apply IH; [|exact A1]. apply in_app_or in Ht. destruct Ht as [Ht|Ht]; [destruct l as [l|]; [|destruct Ht]; destruct Ht as [<-|[]]; now apply good_left with (1 := G)|].
      apply in_app_or in Ht. destruct Ht as [Ht|Ht]; [destruct r as [r|]; [|destruct Ht]; destruct Ht as [<-|[]]; now apply good_right with (1 := G)|]. now apply good_stmt with (1 := G).
    - intros vs0 s2 s3 A1. rewrite (ag_world _ _ A1). destruct (prim P o y vs0 (world s3)) as [[v w]|]; [|exact I]. split; [reflexivity|]. now apply agree_world. }
  destruct o; try exact AP; try exact I; try (now destruct D).
  - (* dot *) rewrite !eval_dot.
    rewrite not_env by exact G. rewrite not_env_rw with (ps := ps) by exact G. exact AP.
  - (* ternary *) cbn [eval]. destruct l as [c|]; [|exact I]. destruct ss as [|a [|b [|]]]; try exact I. cbn [option_map map]. apply same_bind; [apply IH; [now apply good_left with (1 := G)|exact A]|].
    intros v s2 s3 A1. destruct (truth P v); (apply IH; [|exact A1]); apply good_stmt with (1 := G); cbn; auto.
Qed.
Lemma sim_block ex ex1 ts : (forall t s s1, In t ts -> agree s s1 -> same (ex t s) (ex1 (rw t) s1)) -> forall s s1, agree s s1 -> same (@block V W ex ts s) (block ex1 (map rw ts) s1).
Proof.
  intros H. induction ts as [|t ts IH]; intros s s1 A; [now split|]. cbn [block map]. apply same_bind; [apply H; [now left|exact A]|]. intros o s2 s3 A1.
  destruct o; [|now split]. apply IH; [|exact A1]. intros. apply H; auto. now right.
Qed.
Lemma sim_rounds ex ex1 x v ts : own fn x -> (forall t s s1, In t ts -> agree s s1 -> same (ex t s) (ex1 (rw t) s1)) ->
  forall k i s s1, agree s s1 -> same (rounds P ex x v ts k i s) (rounds P ex1 x v (map rw ts) k i s1).
Proof.
  intros Hx H. induction k as [|k IH]; intros i s s1 A; [exact I|]. cbn [rounds]. rewrite (ag_world _ _ A). destruct (elem P v i (world s1)) as [[e|]|]; [|now split|exact I].
  apply same_bind; [apply sim_block; [exact H|now apply agree_own]|]. intros o s2 s3 A1. destruct o; [now apply IH|now split].
Qed.
Definition same1 (a b : option (@state V W)) : Prop := match a, b with None, None => True | Some s, Some s1 => agree s s1 | _, _ => False end.
Lemma local_rw b : local fn b -> exists x, t_sym b = Some x /\ t_sym (rw b) = Some x /\ own fn x /\ (exists l r ss ps sc, b = Tree OpIdentifier (Some x) l r ss ps sc) /\ (exists l r ss ps sc, rw b = Tree OpIdentifier (Some x) l r ss ps sc).
Proof.
  intros (x & (l & r & ss & ps & sc & ->) & Hx & _). exists x. destruct (rw_kept x l r ss ps sc) as (l2 & E); [intros H; now apply (Hvs x)|]. rewrite E. repeat split; auto; repeat eexists.
Qed.
Lemma sim_set_vars : forall bs ws s s1, (forall b, In b bs -> local fn b) -> agree s s1 -> same1 (set_vars bs ws s) (set_vars (map rw bs) ws s1).
Proof.
  induction bs as [|b bs IH]; intros [|w ws] s s1 H A; cbn [set_vars map]; auto; [exact I|exact I|]. destruct (local_rw b) as (x & E1 & E2 & Hx & _); [apply H; now left|]. rewrite E1, E2. apply IH; [intros; apply H; now right|now apply agree_own].
Qed.
Lemma sim_assign n t v s s1 : good t -> (forall x, is_ident t x -> s_stack x = true) -> agree s s1 -> same1 (assign P env n t v s) (assign P env n (rw t) v s1).
Proof.
  intros G Hs A. destruct t as [o y l r ss ps sc].
  assert (D : o = OpIdentifier \/ o <> OpIdentifier) by (destruct o; (now left) || (right; discriminate)). destruct D as [-> | D].
  { destruct y as [x|]; [|exact I]. assert (Hx : s_stack x = true) by (apply Hs; repeat eexists). assert (Dx : In x vs \/ ~ In x vs) by (destruct (mem x vs) eqn:E; [left; now apply mem_in|right; intros H; apply mem_in in H; congruence]). destruct Dx as [Dx|Dx].
    - destruct (rw_captured x l r ss ps sc Dx) as (i & f & ps3 & Hi & Hf & E). rewrite E. destruct (agree_captured s s1 i x v A Hi Hx) as [L A1]. cbn [assign]. rewrite env_field_here, Hx, Hf. apply Nat.ltb_lt in L. rewrite L. exact A1.
    - destruct (rw_kept x l r ss ps sc Dx) as (l2 & E). rewrite E. cbn. rewrite Hx. apply agree_own; [exact A|]. apply good_here in G. destruct G as (_ & _ & G). destruct (G x) as [_ [H|H]]; [repeat eexists|exact Hx|exact H|contradiction]. }
  rewrite rw_node by auto.
  assert (AP : (o = OpDot \/ o = OpArray) -> same1 (bind (evals (eval P env n) (o2l l ++ o2l r) s) (fun vs0 s2 => match store P o vs0 v (world s2) with Some w => Some (set_world w s2) | None => None end))
                    (bind (evals (eval P env n) (o2l (option_map rw l) ++ o2l (option_map rw r)) s1) (fun vs0 s2 => match store P o vs0 v (world s2) with Some w => Some (set_world w s2) | None => None end))).
  { intros _. rewrite !o2l_map, <- !map_app.
    assert (E : same (evals (eval P env n) (o2l l ++ o2l r) s) (evals (eval P env n) (map rw (o2l l ++ o2l r)) s1)).
    { apply sim_evals; [|exact A]. intros t s2 s3 Ht A1. apply sim_eval; [|exact A1]. apply in_app_or in Ht. destruct Ht as [Ht|Ht]; [destruct l as [l|]; [|destruct Ht]; destruct Ht as [<-|[]]; now apply good_left with (1 := G)|destruct r as [r|]; [|destruct Ht]; destruct Ht as [<-|[]]; now apply good_right with (1 := G)]. }
    destruct (evals (eval P env n) (o2l l ++ o2l r) s) as [[ws s2]|], (evals (eval P env n) (map rw (o2l l ++ o2l r)) s1) as [[ws1 s3]|]; cbn in E |- *; try contradiction; auto. destruct E as [<- A1]. rewrite (ag_world _ _ A1).
    destruct (store P o ws v (world s3)); [|exact I]. now apply agree_world. }
  destruct o; try exact I; [|now destruct D|].
  all: cbn [assign].
  - rewrite not_env by exact G. rewrite not_env_rw with (ps := ps) by exact G. apply AP. now left.
  - cbn [env_field]. apply AP. now right.
Qed.
Lemma sim_exec : forall n t s s1, good t -> agree s s1 -> same (exec P env n t s) (exec P env n (rw t) s1).
Proof.
  induction n as [|n IH]; intros t s s1 G A; [exact I|]. destruct t as [o y l r ss ps sc].
  assert (EV : same (bind (eval P env n (Tree o y l r ss ps sc) s) (fun v s2 => Some (@Next V, s2))) (bind (eval P env n (rw (Tree o y l r ss ps sc)) s1) (fun v s2 => Some (Next, s2)))).
  { apply same_bind; [now apply sim_eval|]. intros v s2 s3 A1. now split. }
  assert (D : o = OpIdentifier \/ o <> OpIdentifier) by (destruct o; (now left) || (right; discriminate)). destruct D as [-> | D].
  { replace (exec P env (S n) (rw (Tree OpIdentifier y l r ss ps sc)) s1) with (bind (eval P env n (rw (Tree OpIdentifier y l r ss ps sc)) s1) (fun (v : V) s2 => Some (@Next V, s2))); [exact EV|].
    cbn [rewrite_vars]. destruct y as [x|]; [|reflexivity]. destruct (mem x vs); [|reflexivity]. now destruct (get_field (s_name x) fs). }
  rewrite rw_node in EV |- * by auto.
  pose proof (fun k => good_left o y l r ss ps sc k G) as GL. pose proof (fun k => good_right o y l r ss ps sc k G) as GR. pose proof (fun k => good_stmt o y l r ss ps sc k G) as GS.
  assert (BL : forall s s1, agree s s1 -> same (block (exec P env n) ss s) (block (exec P env n) (map rw ss) s1)).
  { intros s2 s3 A1. apply sim_block; [|exact A1]. intros t s4 s5 Ht A2. apply IH; [now apply GS|exact A2]. }
  pose proof (good_here _ G) as [(_ & _ & _ & N) _]. cbn [t_op t_left t_right t_stmts t_params] in N.
  destruct o; try exact EV; try (now destruct D); cbn [exec option_map].
  all: clear EV.
  all: try (now apply BL).
  - (* return *) destruct l as [e|]; [|now split]. cbn. apply same_bind; [apply sim_eval; [now apply GL|exact A]|]. intros v s2 s3 A1. now split.
  - (* if *) destruct l as [c|]; [|exact I]. cbn. apply same_bind; [apply sim_eval; [now apply GL|exact A]|]. intros v s2 s3 A1. destruct (truth P v); [now apply BL|]. destruct r as [t|]; [|now split]. apply IH; [now apply GR|exact A1].
  - (* while *) destruct l as [c|]; [|exact I]. cbn. apply same_bind; [apply sim_eval; [now apply GL|exact A]|]. intros v s2 s3 A1. destruct (truth P v); [|now split].
    apply same_bind; [now apply BL|]. intros o s4 s5 A2. destruct o; [|now split]. specialize (IH _ _ _ G A2). rewrite rw_node in IH by auto. exact IH.
  - (* := *) destruct N as (b & -> & Hb). destruct (local_rw b Hb) as (x & _ & _ & Hx & (? & ? & ? & ? & ? & E1) & (? & ? & ? & ? & ? & E2)). cbn [option_map]. rewrite E2. clear E2. rewrite E1.
    destruct r as [e|]; [|exact I]. cbn. apply same_bind; [apply sim_eval; [now apply GR|exact A]|]. intros v s2 s3 A1. split; [reflexivity|]. now apply agree_own.
  - (* = *) destruct l as [a|]; [|exact I]. destruct r as [e|]; [|exact I]. cbn. apply same_bind; [apply sim_eval; [now apply GR|exact A]|]. intros v s2 s3 A1.
    pose proof (sim_assign n a v s2 s3 (GL a eq_refl) (fun x => N a x eq_refl) A1) as Q. destruct (assign P env n a v s2), (assign P env n (rw a) v s3); cbn in Q |- *; try contradiction; auto.
  - (* elseif *) destruct l as [c|]; [|exact I]. cbn. apply same_bind; [apply sim_eval; [now apply GL|exact A]|]. intros v s2 s3 A1. destruct (truth P v); [now apply BL|]. destruct r as [t|]; [|now split]. apply IH; [now apply GR|exact A1].
  - (* match *) destruct l as [e|]; [|exact I]. cbn. apply same_bind; [apply sim_eval; [now apply GL|exact A]|]. intros v s2 s3 A1.
    assert (C : forall c, In c ss -> exists y1 l1 r1 ss1 ps1 sc1, c = Tree OpCase y1 l1 r1 ss1 ps1 sc1 /\ rw c = Tree OpCase y1 (option_map rw l1) (option_map rw r1) (map rw ss1) (map rw ps1) sc1).
    { intros c Hc. specialize (N c Hc). specialize (GS c Hc). destruct c as [o1 y1 l1 r1 ss1 ps1 sc1]. cbn in N. subst o1. repeat eexists. rewrite rw_node; [reflexivity|exact GS|discriminate]. }
    replace (map t_sym (map rw ss)) with (map t_sym ss) by (rewrite map_map; apply map_ext_in; intros c Hc; destruct (C c Hc) as (? & ? & ? & ? & ? & ? & E1 & E2); rewrite E2, E1; reflexivity).
    rewrite (ag_world _ _ A1). destruct (pick_case P v (map t_sym ss) (world s3)) as [[i ws]|]; [|exact I].
    rewrite nth_error_map. destruct (nth_error ss i) as [c|] eqn:Ec; [|exact I]. cbn [option_map]. apply nth_error_In in Ec. destruct (C c Ec) as (y1 & l1 & r1 & ss1 & ps1 & sc1 & E1 & E2). rewrite E2. specialize (GS c Ec). rewrite E1 in *. cbn [t_params t_stmts].
    pose proof (good_here _ GS) as [(_ & _ & _ & N1) _]. cbn [t_op t_params] in N1.
    pose proof (sim_set_vars ps1 ws s2 s3 N1 A1) as Q. destruct (set_vars ps1 ws s2) as [s4|], (set_vars (map rw ps1) ws s3) as [s5|]; cbn in Q |- *; try contradiction; auto.
    apply sim_block; [|exact Q]. intros t s6 s7 Ht A2. apply IH; [now apply good_stmt with (1 := GS)|exact A2].
  - (* for *) destruct N as (b & -> & Hb). destruct (local_rw b Hb) as (x & _ & _ & Hx & (? & ? & ? & ? & ? & E1) & (? & ? & ? & ? & ? & E2)). cbn [option_map]. rewrite E2. clear E2. rewrite E1.
    destruct r as [e|]; [|exact I]. cbn. apply same_bind; [apply sim_eval; [now apply GR|exact A]|]. intros v s2 s3 A1. apply sim_rounds; [exact Hx| |exact A1]. intros t s6 s7 Ht A2. apply IH; [now apply GS|exact A2].
Qed.
Lemma sim_run n o y l r ss ps sc y1 l1 r1 ps1 sc1 s s1 : (forall t, In t ss -> good t) -> agree s s1 -> same (run P env n (Tree o y l r ss ps sc) s) (run P env n (Tree o y1 l1 r1 (map rw ss) ps1 sc1) s1).
Proof.
  intros G A. destruct o; try exact I; cbn [run].
  - apply sim_block; [|exact A]. intros t s2 s3 Ht A1. apply sim_exec; [now apply G|exact A1].
  - destruct ss as [|e [|]]; try exact I. cbn [map]. apply same_bind; [apply sim_eval; [apply G; now left|exact A]|]. intros v s2 s3 A1. now split.
Qed.
End Sim.

Lemma rewrite_none env base t : rewrite_vars env (fields base 0 []) [] t = t.
Proof.
  induction t as [o y l r ss ps sc IH] using tree_ind'. cbn [rewrite_vars]. cbn [fields] in *.
  assert (M : forall ts, (forall k, In k ts -> In k (o2l l ++ o2l r ++ ss ++ ps)) -> map (rewrite_vars env [] []) ts = ts).
  { intros ts H. rewrite <- (map_id ts) at 2. apply map_ext_in. intros k Hk. now apply IH, H. }
  assert (O : forall u, (forall k, In k (o2l u) -> In k (o2l l ++ o2l r ++ ss ++ ps)) -> option_map (rewrite_vars env [] []) u = u).
  { intros [k|] H; [|reflexivity]. cbn. f_equal. apply IH, H. now left. }
  rewrite (M ss), (M ps), (O l), (O r) by (intros k Hk; rewrite !in_app_iff; tauto).
  replace (if walks_left o then l else l) with l by now destruct (walks_left o). replace (if walks_right o then r else r) with r by now destruct (walks_right o).
  replace (if walks_stmts o then ss else ss) with ss by now destruct (walks_stmts o). replace (if walks_params o then ps else ps) with ps by now destruct (walks_params o).
  destruct o; try reflexivity. now destruct y.
Qed.

(* -------------------------------------------------------------------------- functions *)

Lemma map_nth_error_eq {A B} (f : A -> B) (l : list A) (m : list B) : (forall i, nth_error m i = option_map f (nth_error l i)) -> m = map f l.
Proof.
  revert l. induction m as [|b m IH]; intros [|a l] H; [reflexivity|discriminate (H 0)|discriminate (H 0)|]. pose proof (H 0) as H0. cbn in H0. injection H0 as ->. cbn. f_equal. apply IH. intros i. apply (H (S i)).
Qed.
Lemma capture_values {V W} (P : prims V W) env fuel vs s : evals (eval P env (S fuel)) (capture vs) s = Some (map (fun x => value P x s) vs, s).
Proof. induction vs as [|x vs IH]; [reflexivity|]. cbn [capture map evals]. unfold capture in IH. change (eval P env (S fuel) (ident x) s) with (Some (value P x s, s)). cbn [bind]. rewrite IH. reflexivity. Qed.

(** Whether a function declares a name. *)
Lemma own_or fn x : own fn x \/ ~ own fn x.
Proof.
  assert (T : forall t, (exists m cs, below m cs t /\ opens (t_op m) = true /\ In x (t_scope m)) \/ ~ (exists m cs, below m cs t /\ opens (t_op m) = true /\ In x (t_scope m))).
  { apply kids_ind. intros t IH.
    assert (K : (exists k, In k (kids t) /\ exists m cs, below m cs k /\ opens (t_op m) = true /\ In x (t_scope m)) \/ ~ (exists k, In k (kids t) /\ exists m cs, below m cs k /\ opens (t_op m) = true /\ In x (t_scope m))).
    { revert IH. generalize (kids t). induction l as [|k l IHl]; intros IH; [right; intros (k & [] & _)|]. destruct (IH k (or_introl eq_refl)) as [H|H]; [left; exists k; split; [now left|exact H]|].
      destruct IHl as [(k1 & H1 & H2)|H1]; [intros; apply IH; now right|left; exists k1; split; [now right|exact H2]|]. right. intros (k1 & [<-|H2] & H3); [now apply H|apply H1; now exists k1]. }
    destruct K as [(k & Hk & m & cs & Hm & H)|K]; [left; exists m, (own_scope t ++ cs); split; [now apply below_kid with k|exact H]|].
    destruct (opens (t_op t) && mem x (t_scope t)) eqn:E.
    - apply andb_true_iff in E. destruct E as [E1 E2]. left. exists t, (own_scope t). split; [constructor|]. split; [exact E1|now apply mem_in].
    - right. intros (m & cs & Hm & H1 & H2). inversion Hm; subst; [|apply K; eexists; split; [eassumption|]; eexists _, _; eauto]. apply mem_in in H2. rewrite H1, H2 in E. discriminate. }
  unfold own. destruct (in_dec sym_eq_dec x (t_scope fn)) as [H|H]; [left; now left|]. destruct (T fn) as [H1|H1]; [left; now right|right]. intros [H2|H2]; auto.
Qed.
(** The free variables are those of the enclosing functions. *)
Lemma free_stack fn vs x : no_fns fn -> captures_plainly fn -> free_vars fn = Some vs -> uses fn x -> s_stack x = true -> own fn x \/ In x vs.
Proof.
  intros Hno Hp E Hu Hs. destruct (free_vars_ok fn Hno) as (vs1 & E1 & _ & C). rewrite E in E1. injection E1 as <-.
  destruct (own_or fn x) as [H|H]; [now left|right]. destruct (Hp x Hu Hs H) as (H1 & H2 & H3). now apply C.
Qed.

Lemma kids_stmts fn t : is_fn (t_op fn) = true -> In t (t_stmts fn) -> In t (kids fn).
Proof. destruct fn as [[] ? ? ? ? ? ?]; intros H; try discriminate H; cbn; rewrite !in_app_iff; tauto. Qed.
Lemma hoisted_same {V W} (P : prims V W) fn n vs0 vs : well_formed fn -> no_fns fn -> scoped fn -> captures_plainly fn -> ~ uses fn (n_env n) ->
  free_vars fn = Some vs0 -> Permutation vs0 vs -> NoDup (map s_name vs) ->
  forall fuel s s1, world s = world s1 -> (forall x, own fn x -> s_stack x = true -> vars s x = vars s1 x) -> env_of s1 = map (fun x => value P x s) vs ->
    ends_alike P fn vs (run P (n_env n) fuel fn s) (run P (n_env n) fuel (hoisted n vs fn) s1).
Proof.
  intros [Hfn Hwf] Hno Hsc Hp He E Hperm Hnd fuel s s1 Hw Ho Henv.
  destruct (free_vars_ok fn Hno) as (vs1 & E1 & F & _). rewrite E in E1. injection E1 as <-.
  assert (Hvs : forall x, In x vs -> ~ own fn x) by (intros x Hx; apply (Permutation_in x (Permutation_sym Hperm)) in Hx; now apply F).
  assert (G : forall t, In t (t_stmts fn) -> good fn (n_env n) vs t).
  { intros t Ht m cs Hm. pose proof (kids_stmts fn t Hfn Ht) as Hk. split; [now apply (Hwf t m cs)|]. split; [now apply (Hno t m cs)|]. intros x Hx.
    assert (U : uses fn x) by (destruct (kid_below fn t m cs Hk Hm) as (cs1 & H); now exists m, cs1). split; [intros ->; contradiction|]. intros Hs.
    destruct (free_stack fn vs0 x Hno Hp E U Hs) as [H|H]; [now left|right]. now apply (Permutation_in x Hperm). }
  assert (A : agree P fn vs s s1) by (split; [exact Hw|exact Ho|]; intros i; rewrite Henv; apply nth_error_map).
  assert (H : exists y1 l1 r1 ps1 sc1, hoisted n vs fn = Tree (t_op fn) y1 l1 r1 (map (rewrite_vars (n_env n) (fields (n_base n) 0 vs) vs) (t_stmts fn)) ps1 sc1).
  { destruct fn as [o y l r ss ps sc]. cbn [t_op t_stmts]. destruct vs as [|v vs2].
    - cbn [hoisted]. repeat eexists. f_equal. symmetry. rewrite <- (map_id ss) at 2. apply map_ext. intros t. apply rewrite_none.
    - cbn [t_op] in Hfn. cbn [hoisted]. unfold rewrite_fn, add_env. destruct o; try discriminate Hfn; cbn [rewrite_vars walks_stmts]; repeat eexists. }
  destruct H as (y1 & l1 & r1 & ps1 & sc1 & H). rewrite H. destruct fn as [o y l r ss ps sc] eqn:Ef. cbn [t_op t_stmts] in *.
  pose proof (sim_run P fn (n_env n) (n_base n) vs Hnd) as S. rewrite Ef in S. specialize (S Hvs fuel o y l r ss ps sc y1 l1 r1 ps1 sc1 s s1 G A).
  unfold same in S. unfold ends_alike. destruct (run P (n_env n) fuel (Tree o y l r ss ps sc) s) as [[a s2]|]; [|exact S].
  match goal with |- match ?r with _ => _ end => destruct r as [[a1 s3]|] end; [|exact S]. destruct S as [-> [B1 B2 B3]]. split; [reflexivity|]. split; [exact B1|]. split; [exact B2|]. now apply map_nth_error_eq.
Qed.
