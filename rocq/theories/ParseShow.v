(** What is written is parsed back. *)
From Coq Require Import ZArith List Bool Arith Lia.
From Verif Require Import LexModel ParseModel ParseSpec ParseTotal.
Import ListNotations.
Open Scope nat_scope.

(** [p] returns what [Q] allows, or there is not enough fuel. *)
Definition G {A} (p : parser A) (s : state) (Q : A -> state -> Prop) : Prop := wp True False False (p s) Q.
Definition at_ (r : list token) : state := State r [] false.
Definition hdk (r : list token) : kind := match r with t :: _ => tk_kind t | [] => KEOF end.
(** A result with a value that [ok] allows and the tokens [r] left. *)
Definition res {A} (ok : A -> Prop) (r : list token) : A -> state -> Prop := fun x s => s = at_ r /\ ok x.

Lemma G_bind {A B} (p : parser A) (q : A -> parser B) s Q : G p s (fun a s1 => G (q a) s1 Q) -> G (bind p q) s Q.
Proof. apply wp_bind. Qed.
Lemma G_mono {A} (p : parser A) s (Q Q' : A -> state -> Prop) : (forall a s, Q a s -> Q' a s) -> G p s Q -> G p s Q'.
Proof. apply wp_mono. Qed.
Lemma G_then {A B} (p : parser A) (q : A -> parser B) s ok r Q : G p s (res ok r) -> (forall a, ok a -> G (q a) (at_ r) Q) -> G (bind p q) s Q.
Proof. intros H K. apply G_bind. revert H. apply G_mono. intros a s1 [-> Ha]. now apply K. Qed.
Lemma G_ret {A} (a : A) s (Q : A -> state -> Prop) : Q a s -> G (ret a) s Q.
Proof. exact (fun H => H). Qed.
Lemma G_next t r (Q : token -> state -> Prop) : r <> [] -> Q t (at_ r) -> G next (at_ (t :: r)) Q.
Proof. intros H K. unfold G, next, at_. cbn. destruct r; [congruence|]. exact K. Qed.
Lemma G_need k t r (Q : token -> state -> Prop) : tk_kind t = k -> r <> [] -> Q t (at_ r) -> G (need k) (at_ (t :: r)) Q.
Proof. intros E H K. unfold G, need, at_. cbn. rewrite E, kind_eqb_refl. destruct r; [congruence|]. exact K. Qed.
Lemma G_kind r (Q : kind -> state -> Prop) : r <> [] -> Q (hdk r) (at_ r) -> G cur_kind (at_ r) Q.
Proof. intros H K. unfold G, cur_kind, at_. cbn. destruct r; [congruence|]. exact K. Qed.
Lemma G_is ks r (Q : bool -> state -> Prop) : r <> [] -> Q (in_kinds (hdk r) ks) (at_ r) -> G (is ks) (at_ r) Q.
Proof. intros H K. apply G_bind, G_kind; [exact H|]. exact K. Qed.
Lemma G_matches k r (Q : bool -> state -> Prop) : r <> [] ->
  (hdk r = k -> exists t r', r = t :: r' /\ r' <> [] /\ Q true (at_ r')) -> (hdk r <> k -> Q false (at_ r)) -> G (matches k) (at_ r) Q.
Proof.
  intros H K1 K2. apply G_bind, G_is; [exact H|]. cbn. rewrite orb_false_r. destruct (kind_eqb (hdk r) k) eqn:E.
  - apply kind_eqb_eq in E. destruct (K1 E) as (t & r' & -> & H' & HQ). apply G_bind, G_next; [exact H'|]. exact HQ.
  - apply G_ret, K2. intros E2. now rewrite E2, kind_eqb_refl in E.
Qed.

(** Splitting what is written. *)
Lemma words_app w a b : map look w = a ++ b -> exists w1 w2, w = w1 ++ w2 /\ map look w1 = a /\ map look w2 = b.
Proof.
  revert w. induction a as [|x a IH]; intros w H; [exists [], w; auto|]. destruct w as [|t w]; [discriminate|]. cbn in H. injection H as H1 H2.
  destruct (IH w H2) as (w1 & w2 & -> & E1 & E2). exists (t :: w1), w2. cbn. now rewrite H1, E1.
Qed.
Lemma words_cons w x b : map look w = x :: b -> exists t w2, w = t :: w2 /\ look t = x /\ map look w2 = b.
Proof. destruct w as [|t w]; [discriminate|]. cbn. intros H. injection H as H1 H2. eauto. Qed.
Lemma words_nil w : map look w = [] -> w = [].
Proof. destruct w; [reflexivity|discriminate]. Qed.
Lemma look_kind t k v : look t = (k, v) -> tk_kind t = k.
Proof. intros H. unfold look in H. injection H. auto. Qed.
Lemma look_strip t w : look t = w -> strip t = bare w.
Proof. intros <-. reflexivity. Qed.
Lemma words_first w a : map look w = a -> a <> [] -> w <> [] /\ forall r, hdk (w ++ r) = first a.
Proof.
  intros <- H. destruct w as [|t w]; [now destruct H|]. split; [discriminate|]. intros r. cbn. unfold look. reflexivity.
Qed.
Ltac words := repeat match goal with
  | H : map look _ = _ ++ _ |- _ => apply words_app in H as (? & ? & -> & ? & ?)
  | H : map look _ = _ :: _ |- _ => apply words_cons in H as (? & ? & -> & ? & ?)
  | H : map look ?w = [] |- _ => apply words_nil in H; subst w
  end.

Lemma app_live {A} (w r : list A) : r <> [] -> w ++ r <> [].
Proof. intros H E. apply app_eq_nil in E. now destruct E. Qed.
Ltac live := solve [assumption | discriminate | apply app_live; live].

(** Lists with commas. *)
Section Lists.
Context {A : Type} (p : parser node) (sh : A -> list word) (nd : A -> node).
Definition parses (x : A) (k : kind) : Prop :=
  forall w r, map look w = sh x -> r <> [] -> hdk r = k -> G p (at_ (w ++ r)) (res (fun n => erase n = nd x) r).
Lemma G_comma close l : close <> KComma -> (forall x, In x l -> parses x KComma /\ parses x close) -> forall n w r, l <> [] -> map look w = commas (map sh l) ->
  r <> [] -> hdk r = close -> G (comma_sep n p) (at_ (w ++ r)) (res (fun ns => map erase ns = map nd l) r).
Proof.
  intros Hc. induction l as [|x l IH]; intros Hp n w r Hl Hw Hr Hk; [congruence|]. destruct n as [|n]; [exact I|]. cbn [comma_sep].
  destruct l as [|y l].
  - cbn in Hw. eapply G_then; [apply (proj2 (Hp x (or_introl eq_refl))); eassumption|]. intros a Ha. apply G_bind, G_matches; [exact Hr| |].
    + intros E. congruence.
    + intros _. apply G_ret. split; [reflexivity|]. cbn. now rewrite Ha.
  - change (commas (map sh (x :: y :: l))) with (sh x ++ sym KComma :: commas (map sh (y :: l))) in Hw. words. rewrite <- app_assoc.
    eapply G_then; [apply (proj1 (Hp x (or_introl eq_refl))); [assumption|discriminate|eapply look_kind; eassumption]|]. intros a Ha.
    apply G_bind, G_matches; [discriminate| |].
    + intros _. cbn. do 2 eexists. split; [reflexivity|]. split; [live|].
      eapply G_then; [apply IH; [intros z Hz; apply Hp; now right|discriminate|eassumption|exact Hr|exact Hk]|]. intros ns Hns. apply G_ret.
      split; [reflexivity|]. cbn. rewrite Ha, Hns. reflexivity.
    + intros E. exfalso. apply E. cbn. eapply look_kind; eassumption.
Qed.
Lemma first_commas l : (forall x, In x l -> sh x <> []) -> l <> [] -> exists x, In x l /\ first (commas (map sh l)) = first (sh x) /\ commas (map sh l) <> [].
Proof.
  destruct l as [|x l]; [congruence|]. intros H _. exists x. split; [now left|]. specialize (H x (or_introl eq_refl)). cbn. destruct (map sh l); [auto|].
  destruct (sh x); [congruence|]. split; [reflexivity|discriminate].
Qed.
Lemma G_list close l n w t r : close <> KComma -> (forall x, In x l -> sh x <> [] /\ first (sh x) <> close) ->
  (forall x, In x l -> parses x KComma /\ parses x close) -> map look w = commas (map sh l) -> tk_kind t = close -> r <> [] ->
  G (list_until n close p) (at_ (w ++ t :: r)) (res (fun ns => map erase ns = map nd l) r).
Proof.
  intros Hc Hs Hp Hw Ht Hr. unfold list_until. apply G_bind, G_is; [live|].
  destruct l as [|x0 l0].
  - apply words_nil in Hw. subst w. cbn [app hdk]. unfold in_kinds. cbn. rewrite Ht, kind_eqb_refl. cbn.
    apply G_bind, G_ret. apply G_bind, G_need; [exact Ht|exact Hr|]. apply G_ret. split; reflexivity.
  - set (l := x0 :: l0) in *. assert (Hl : l <> []) by discriminate. clearbody l.
    destruct (first_commas l) as (x & Hx & E1 & E2); [intros x Hx; now apply Hs|exact Hl|].
    destruct (words_first w _ Hw E2) as [_ Ef]. rewrite Ef, E1. unfold in_kinds. cbn. destruct (kind_eqb (first (sh x)) close) eqn:E.
    { apply kind_eqb_eq in E. now destruct (proj2 (Hs x Hx)). } cbn.
    eapply G_then; [apply (G_comma close l); auto; discriminate|]. intros ns Hns. apply G_bind, G_need; [exact Ht|exact Hr|].
    apply G_ret. split; [reflexivity|exact Hns].
Qed.
(** Lists without commas; what follows an element matters. *)
Lemma G_many (ends : A -> kind -> bool) stop close l : In close stop ->
  (forall x, In x l -> sh x <> [] /\ in_kinds (first (sh x)) stop = false) ->
  (forall x, In x l -> forall k, ends x k = true -> parses x k) ->
  forall n w r, ends_all ends sh l close = true -> map look w = flat_map sh l -> r <> [] -> hdk r = close ->
  G (many n stop p) (at_ (w ++ r)) (res (fun ns => map erase ns = map nd l) r).
Proof.
  intros Hst. induction l as [|x l IH]; intros Hs Hp n w r He Hw Hr Hk; (destruct n as [|n]; [exact I|]); cbn [many].
  - apply words_nil in Hw. subst w. cbn [app]. apply G_bind, G_is; [exact Hr|]. assert (E : in_kinds (hdk r) stop = true).
    { unfold in_kinds. apply existsb_exists. exists close. split; [exact Hst|]. rewrite Hk. apply kind_eqb_refl. }
    rewrite E. apply G_ret. split; reflexivity.
  - cbn in Hw. cbn [ends_all] in He. apply andb_true_iff in He as [He1 He2]. words. rewrite <- app_assoc.
    apply G_bind, G_is; [live|]. destruct (Hs x (or_introl eq_refl)) as [Hx1 Hx2].
    match goal with H : map look ?u = sh x |- _ => destruct (words_first u _ H Hx1) as [_ Ef]; rewrite Ef end. rewrite Hx2.
    match goal with H : map look ?u = sh x, H2 : map look ?v = flat_map sh l |- _ => rename H into Wx; rename H2 into Wl end.
    eapply G_then.
    + eapply (Hp x (or_introl eq_refl)); [exact He1|eassumption|live|].
      destruct l as [|y l]; [apply words_nil in Wl; rewrite Wl; exact Hk|]. cbn in Wl.
      destruct (words_app _ _ _ Wl) as (u & v & -> & Wy & _). rewrite <- app_assoc.
      destruct (words_first u _ Wy (proj1 (Hs y (or_intror (or_introl eq_refl))))) as [_ Ey]. apply Ey.
    + intros a Ha. eapply G_then; [apply IH; [intros z Hz; apply Hs; now right|intros z Hz; apply Hp; now right|exact He2|exact Wl|exact Hr|exact Hk]|].
      intros ns Hns. apply G_ret. split; [reflexivity|]. cbn. now rewrite Ha, Hns.
Qed.
End Lists.

(* -------------------------------------------------------------------------------- types *)

Lemma show_ty_first t : show_ty t <> [] /\ in_kinds (first (show_ty t)) [KFn; KIdentifier; KLBrack] = true.
Proof. destruct t as [x [l|]|ps r|t]; cbn; split; congruence || reflexivity. Qed.
Lemma first_not k l m : in_kinds k l = true -> (forall x, In x l -> x <> m) -> k <> m.
Proof. unfold in_kinds. intros H K. apply existsb_exists in H as (x & Hx & E). apply kind_eqb_eq in E. subst. now apply K. Qed.
Ltac not_in := intros ? Hin; cbn in Hin; repeat (destruct Hin as [<-|Hin]; [discriminate|]); destruct Hin.
Lemma in_kinds_false k l : (forall x, In x l -> x <> k) -> in_kinds k l = false.
Proof.
  intros H. unfold in_kinds. destruct (existsb (kind_eqb k) l) eqn:E; [|reflexivity]. apply existsb_exists in E as (x & Hx & E). apply kind_eqb_eq in E. subst.
  now destruct (H x Hx).
Qed.

Lemma show_in {A} (sh : A -> list word) x l : In x l -> List.length (sh x) <= List.length (commas (map sh l)).
Proof.
  induction l as [|y l IH]; [contradiction|]. intros H. cbn. destruct (map sh l) as [|z zs] eqn:E.
  - destruct l; [|discriminate]. destruct H as [->|[]]. lia.
  - rewrite app_length. cbn. destruct H as [->|H]; [lia|]. specialize (IH H). cbn in IH |- *. lia.
Qed.

Lemma ty_ends_close : forall t k, in_kinds k [KComma; KRParen; KRGmet; KRBrack; KLBrace; KAs; KRBrace] = true -> ty_ends t k = true.
Proof.
  intros t k H. unfold in_kinds in H. apply existsb_exists in H as (x & Hx & E). apply kind_eqb_eq in E. subst k. cbn in Hx.
  repeat (destruct Hx as [<-|Hx]; [revert t; fix IH 1; intros [y [l|]|ps [r|]|t]; cbn [ty_ends]; auto|]). destruct Hx.
Qed.
Ltac kinds := repeat match goal with H : look ?t = (?k, _) |- _ => lazymatch goal with _ : tk_kind t = _ |- _ => fail | _ => pose proof (look_kind _ _ _ H) end
  | H : look ?t = sym ?k |- _ => lazymatch goal with _ : tk_kind t = _ |- _ => fail | _ => pose proof (look_kind _ _ _ H) end end.

Definition ty_claim (t : ty) : Prop := forall n w r, map look w = show_ty t -> r <> [] -> ty_ends t (hdk r) = true ->
  G (parse_type n) (at_ (w ++ r)) (res (fun x => erase x = node_ty t) r).
Lemma ty_list close l n w t r : close = KRParen \/ close = KRGmet -> (forall x, In x l -> ty_claim x) -> map look w = commas (map show_ty l) ->
  tk_kind t = close -> r <> [] -> G (list_until n close (parse_type n)) (at_ (w ++ t :: r)) (res (fun ns => map erase ns = map node_ty l) r).
Proof.
  intros Hc Hl Hw Ht Hr. apply (G_list (parse_type n) show_ty node_ty); auto.
  - destruct Hc as [->| ->]; discriminate.
  - intros x _. destruct (show_ty_first x) as [H1 H2]. split; [exact H1|]. eapply first_not; [exact H2|]. destruct Hc as [->| ->]; not_in.
  - intros x Hx. split; intros u v Hu Hv Hk; apply Hl; auto; rewrite Hk; apply ty_ends_close; [reflexivity|]. destruct Hc as [->| ->]; reflexivity.
Qed.
Lemma tys_claim n l w r : (forall x, In x l -> ty_claim x) -> map look w = show_tys l -> r <> [] ->
  G (type_list n (parse_type n)) (at_ (w ++ r)) (res (fun x => map erase (fst x) = map node_ty l /\ strip (snd x) = bare (sym KLGmet)) r).
Proof.
  intros Hl Hw Hr. unfold show_tys in Hw. words. kinds. unfold type_list. cbn [app]. apply G_bind, G_need; [assumption|live|].
  rewrite <- app_assoc. cbn [app]. eapply G_then; [apply (ty_list KRGmet l); auto|]. intros ns Hns. apply G_ret. split; [reflexivity|]. cbn. split; [exact Hns|now apply look_strip].
Qed.
Lemma claim_ty : forall N t, List.length (show_ty t) <= N -> ty_claim t.
Proof.
  induction N as [|N IH]; intros t L.
  { destruct (show_ty_first t) as [H _]. destruct (show_ty t); [congruence|cbn in L; lia]. }
  intros n w r Hw Hr He. destruct n as [|n]; [exact I|]. cbn [parse_type]. destruct t as [x [l|]|ps o|t].
  - cbn [show_ty] in Hw, L. apply words_cons in Hw as (t0 & w0 & -> & Ht & Hw). kinds. cbn [app]. apply G_bind, G_kind; [discriminate|]. cbn [hdk].
    match goal with H : tk_kind t0 = _ |- _ => rewrite H end. apply G_bind, G_next; [live|]. apply G_bind, G_is; [live|].
    change (map look w0 = show_tys l) in Hw. destruct (words_first w0 _ Hw) as [_ Ef]; [discriminate|]. rewrite Ef. cbn [first show_tys sym in_kinds existsb kind_eqb orb].
    apply G_bind.
    eapply G_then; [apply (tys_claim n l); [|exact Hw|exact Hr]|].
    + intros y Hy. apply IH. pose proof (show_in show_ty y l Hy). cbn in L. rewrite app_length in L. cbn in L. lia.
    + intros x0 [H1 H2]. apply G_ret. apply G_ret. split; [reflexivity|]. cbn. rewrite H1, H2, (look_strip _ _ Ht). reflexivity.
  - cbn [show_ty] in Hw. words. kinds. cbn [app]. apply G_bind, G_kind; [discriminate|]. cbn [hdk]. match goal with H : tk_kind _ = _ |- _ => rewrite H end.
    apply G_bind, G_next; [exact Hr|]. apply G_bind, G_is; [exact Hr|]. cbn in He. unfold in_kinds. cbn. apply negb_true_iff in He. rewrite He. cbn.
    split; [reflexivity|]. cbn. erewrite look_strip by eassumption. reflexivity.
  - cbn [show_ty] in Hw, L. words. kinds. cbn [app]. apply G_bind, G_kind; [discriminate|]. cbn [hdk]. match goal with H : tk_kind _ = KFn |- _ => rewrite H end.
    apply G_bind, G_next; [live|]. apply G_bind, G_need; [assumption|live|]. rewrite <- app_assoc. cbn [app].
    eapply G_then; [apply (ty_list KRParen ps); [auto| |eassumption|assumption|live]|].
    + intros y Hy. apply IH. pose proof (show_in show_ty y ps Hy). cbn in L. rewrite app_length in L. cbn in L. lia.
    + intros ns Hns. apply G_bind, G_is; [live|]. destruct o as [t1|].
      * destruct (show_ty_first t1) as [F1 F2]. match goal with H : map look ?u = show_ty t1 |- _ => destruct (words_first u _ H F1) as [_ Ef]; rewrite Ef end. rewrite F2.
        apply G_bind. eapply G_then; [apply (IH t1); [|eassumption|exact Hr|exact He]|].
        { cbn in L. rewrite app_length in L. cbn in L. lia. }
        intros a Ha. apply G_ret. apply G_ret. split; [reflexivity|]. cbn. erewrite look_strip by eassumption. rewrite Hns, Ha. reflexivity.
      * words. cbn [app]. cbn [ty_ends] in He. apply negb_true_iff in He. rewrite He. apply G_bind, G_ret, G_ret. split; [reflexivity|]. cbn.
        erewrite look_strip by eassumption. rewrite Hns. reflexivity.
  - cbn [show_ty] in Hw, L. words. kinds. cbn [app]. apply G_bind, G_kind; [discriminate|]. cbn [hdk]. match goal with H : tk_kind _ = KLBrack |- _ => rewrite H end.
    apply G_bind, G_next; [live|]. apply G_bind, G_need; [assumption|live|]. eapply G_then; [apply (IH t); [cbn in L; lia|eassumption|exact Hr|exact He]|].
    intros a Ha. apply G_ret. split; [reflexivity|]. cbn. erewrite look_strip by eassumption. rewrite Ha. reflexivity.
Qed.
Lemma any_ty t : ty_claim t.
Proof. exact (claim_ty _ t (le_n _)). Qed.
Lemma param_claim n p w r : map look w = show_param p -> r <> [] -> ty_ends (snd p) (hdk r) = true ->
  G (parse_parameter n) (at_ (w ++ r)) (res (fun x => erase x = node_param p) r).
Proof.
  intros Hw Hr He. unfold show_param in Hw. words. kinds. cbn [app]. unfold parse_parameter. apply G_bind, G_need; [assumption|live|].
  apply G_bind, G_need; [assumption|live|]. eapply G_then; [apply any_ty; eassumption|]. intros a Ha. apply G_ret. split; [reflexivity|].
  cbn. erewrite look_strip by eassumption. rewrite Ha. reflexivity.
Qed.
Lemma params_claim n ps w r : map look w = show_params ps -> r <> [] ->
  G (parse_parameters n) (at_ (w ++ r)) (res (fun x => map erase x = map node_param ps) r).
Proof.
  intros Hw Hr. unfold show_params in Hw. words. kinds. cbn [app]. unfold parse_parameters, paren_list. apply G_bind, G_need; [assumption|live|].
  rewrite <- app_assoc. cbn [app]. apply (G_list (parse_parameter n) show_param node_param); auto.
  - discriminate.
  - intros y _. split; discriminate.
  - intros y Hy. split; intros u v Hu Hv Hk; apply param_claim; auto; rewrite Hk; apply ty_ends_close; reflexivity.
Qed.
