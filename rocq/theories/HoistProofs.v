(** Moving function literals out of functions, for C60. *)
From Coq Require Import ZArith List Bool Arith Lia Permutation.
From Verif Require Import ParseModel ClosModel ClosSpec ClosCheck HoistModel HoistSpec.
Import ListNotations.
Open Scope nat_scope.

Lemma every_eq P t : every P t <-> P t /\ forall k, In k (parts t) -> every P k.
Proof.
  split.
  - intros H. split; [apply H; constructor|]. intros k Hk m Hm. apply H. now apply inside_kid with k.
  - intros [H1 H2] m Hm. inversion Hm; subst; [exact H1|]. exact (H2 k H m H0).
Qed.
Lemma every_ident (P : tree -> Prop) x : P (ident x) -> every P (ident x).
Proof. intros H. apply every_eq. split; [exact H|]. intros k []. Qed.
Lemma below_inside m cs t : below m cs t -> inside m t.
Proof. induction 1; [constructor|econstructor; eauto]. Qed.
Lemma flat_no_fns t : (forall k, In k (parts t) -> every done k) -> no_fns t.
Proof. intros H k m cs Hk Hm. apply (H k Hk m (below_inside _ _ _ Hm)). Qed.
Lemma parts_pick o y l r ss ps sc : parts (Tree o y l r ss ps sc) = pick o l r ss ps.
Proof. reflexivity. Qed.

(** Renaming variables keeps all this. *)
Section Rename.
Variables (env : sym) (fs vs : list sym).
Hypothesis local : forall x, In x vs -> s_global x = false.
Notation rn := (rewrite_vars env fs vs).
Lemma rn_global t : global_name t -> global_name (rn t).
Proof.
  destruct t as [o y l r ss ps sc]. intros (x & E & G). cbn in E. subst y. exists x. split; [|exact G]. cbn [rewrite_vars].
  destruct o; try reflexivity. destruct (mem x vs) eqn:M; [|reflexivity]. apply mem_in in M. rewrite (local x M) in G. discriminate.
Qed.
Lemma rn_op t : t_op (rn t) = t_op t \/ (t_op t = OpIdentifier /\ t_op (rn t) = OpDot /\ exists f, parts (rn t) = [ident env; ident f]).
Proof.
  destruct t as [o y l r ss ps sc]. cbn [rewrite_vars]. destruct o; try (left; reflexivity). destruct y as [x|]; [|now left]. destruct (mem x vs); [|now left].
  destruct (get_field (s_name x) fs) as [f|]; [|now left]. right. repeat split. now exists f.
Qed.
Lemma rn_parts t k : In k (parts (rn t)) -> (exists k0, In k0 (parts t) /\ k = rn k0) \/ (exists x, k = ident x).
Proof.
  intros H. destruct (rn_op t) as [E|(E1 & E2 & f & E3)].
  - left. destruct t as [o y l r ss ps sc]. cbn [rewrite_vars] in *. assert (G : In k (map rn (pick o l r ss ps))); [|apply in_map_iff in G as (k0 & <- & G); exists k0; now split].
    rewrite <- pick_map. destruct o; cbn [walks_left walks_right walks_stmts walks_params] in *; try exact H.
    destruct y as [x|]; [|exact H]. destruct (mem x vs); [|exact H]. destruct (get_field (s_name x) fs); [|exact H]. cbn in E. discriminate E.
  - right. rewrite E3 in H. destruct H as [<-|[<-|[]]]; eauto.
Qed.
Lemma rn_left t f : t_op t = OpFuncCall -> t_left t = Some f -> t_left (rn t) = Some (rn f).
Proof. destruct t as [o y l r ss ps sc]. cbn. intros -> ->. reflexivity. Qed.
Lemma rn_calls t : calls_global t -> calls_global (rn t).
Proof.
  intros C E. destruct (rn_op t) as [E'|(_ & E' & _)]; [|congruence]. rewrite E' in E. destruct (C E) as (f & L & G). exists (rn f). split; [now apply rn_left|now apply rn_global].
Qed.
Lemma rn_done t : every done t -> every done (rn t).
Proof.
  induction t as [t IH] using kids_ind. intros D. apply every_eq in D as [[D1 D2] D3]. apply every_eq. split; [split|].
  - unfold no_literal in *. destruct (rn_op t) as [->|(_ & -> & _)]; [exact D1|reflexivity].
  - now apply rn_calls.
  - intros k Hk. apply rn_parts in Hk as [(k0 & Hk & ->)|(x & ->)]; [apply IH; [exact Hk|now apply D3]|]. apply every_ident. split; [reflexivity|discriminate].
Qed.
End Rename.

Lemma dynamic_stays dyn t : calls_global t -> dynamic dyn t = Some t.
Proof. destruct t as [o y l r ss ps sc]. intros C. destruct o; try reflexivity. destruct (C eq_refl) as (f & L & x & X & G). cbn in L. subst l. cbn. now rewrite X, G. Qed.

Section Pass.
Variable names_of : nat -> names.
Variable order : list sym -> list sym.
Variable dyn : sym.
Hypothesis global_names : forall id, s_global (n_env_cons (names_of id)) = true /\ s_global (n_cl_cons (names_of id)) = true /\ s_global (n_fn (names_of id)) = true.
Hypothesis global_dyn : s_global dyn = true.
Hypothesis any_order : forall vs, Permutation vs (order vs).
Notation convert := (convert names_of order dyn).

Lemma in_place_done id vs : every done (in_place (names_of id) vs).
Proof.
  destruct (global_names id) as (G1 & G2 & G3). destruct vs as [|v vs]; cbn [in_place].
  - apply every_ident. split; [reflexivity|discriminate].
  - apply every_eq. split; [split; [reflexivity|]|].
    + intros _. eexists. split; [reflexivity|]. now eexists.
    + cbn. intros k [<-|[<-|[<-|[]]]]; try (apply every_ident; split; [reflexivity|discriminate]).
      apply every_eq. split; [split; [reflexivity|]|].
      * intros _. eexists. split; [reflexivity|]. now eexists.
      * cbn. intros k [<-|[<-|Hk]]; try (apply every_ident; split; [reflexivity|discriminate]). apply in_map_iff in Hk as (x & <- & _). apply every_ident. split; [reflexivity|discriminate].
Qed.
Lemma hoisted_flat n vs0 vs fn : no_fns fn -> free_vars fn = Some vs0 -> Permutation vs0 vs -> is_fn (t_op fn) = true -> (forall k, In k (parts fn) -> every done k) -> flat (hoisted n vs fn).
Proof.
  intros N F Q I D. assert (L : forall x, In x vs -> s_global x = false).
  { intros x Hx. destruct (free_vars_ok fn N) as (vs1 & E & H & _). rewrite F in E. injection E as <-. apply H. now apply (Permutation_in x (Permutation_sym Q)). }
  destruct fn as [o y l r ss ps sc]. cbn [t_op] in I. destruct vs as [|v vs]; cbn [hoisted].
  - split; [intros E; cbn in E; subst o; discriminate|]. intros k Hk. apply D. destruct o; try discriminate I; exact Hk.
  - remember (v :: vs) as ws. unfold rewrite_fn, add_env. cbn [rewrite_vars].
    assert (E : forall k, In k (pick o l r ss (ident (n_env n) :: ps)) -> every done (rewrite_vars (n_env n) (fields (n_base n) 0 ws) ws k)).
    { intros k Hk. apply rn_done; [exact L|]. destruct o; try discriminate I; cbn [pick] in Hk; rewrite !in_app_iff in Hk; cbn [In] in Hk;
      (destruct Hk as [Hk|[[<-|Hk]|Hk]]; [| apply every_ident; split; [reflexivity|discriminate] | | ]; apply D; cbn [parts]; rewrite !in_app_iff; tauto). }
    destruct o; try discriminate I; cbn [walks_left walks_right walks_stmts walks_params]; (split; [intros X; discriminate X|]); intros k Hk; cbn [parts] in Hk;
      rewrite !o2l_map, <- !map_app in Hk; apply in_map_iff in Hk as (k0 & <- & Hk); apply E; exact Hk.
Qed.

Notation grew_to fin := (added_for names_of order dyn fin).
Notation became := (became names_of order dyn).
Lemma hoisted_sym n vs fn : t_sym (hoisted n vs fn) = Some (n_fn n).
Proof. destruct vs; cbn [hoisted]; [now destruct fn|]. now destruct (rewrite_fn _ _ _ fn). Qed.

(** The functions of [s] are among the final ones. *)
Definition ext (s : state) (fin : list tree) : Prop := exists more, fin = added s ++ more.
Definition numbered (s : state) : Prop := last_id s = List.length (added s).
Definition grew (ls : list tree) (s s' : state) : Prop :=
  numbered s' /\ exists new, added s' = added s ++ new /\ forall fin, ext s' fin -> grew_to fin (last_id s) ls new.
Lemma grew_num L s s' : grew L s s' -> numbered s'.
Proof. now intros [H _]. Qed.
Lemma grew_ext L s s' fin : grew L s s' -> ext s' fin -> ext s fin.
Proof. intros (_ & new & E & _) (more & ->). exists (new ++ more). now rewrite E, app_assoc. Qed.
Lemma ext_own s : ext s (added s).
Proof. exists []. now rewrite app_nil_r. Qed.
Lemma grew_0 s : numbered s -> grew [] s s.
Proof. split; [assumption|]. exists []. rewrite app_nil_r. split; [reflexivity|]. intros fin _. split; [reflexivity|]. intros [|i] fn h E; discriminate E. Qed.
Lemma added_app fin n ls new ls' new' : grew_to fin n ls new -> grew_to fin (n + List.length ls) ls' new' -> grew_to fin n (ls ++ ls') (new ++ new').
Proof.
  intros [C D] [C' D']. split; [rewrite !app_length; lia|]. intros i fn h E E1. destruct (Nat.lt_ge_cases i (List.length ls)) as [L|L].
  - rewrite nth_error_app1 in E, E1 by lia. now apply D.
  - rewrite nth_error_app2 in E, E1 by lia. rewrite C in E1. replace (S n + i) with (S (n + List.length ls) + (i - List.length ls)) by lia. now apply D'.
Qed.
Lemma grew_trans L M s s1 s2 : numbered s -> grew L s s1 -> grew M s1 s2 -> grew (L ++ M) s s2.
Proof.
  intros N G G'. pose proof (grew_ext _ _ _ (added s2) G' (ext_own s2)) as X. pose proof (fun fin => grew_ext M s1 s2 fin G') as Y.
  destruct G as (A & new & B & C), G' as (A' & new' & B' & C'). split; [exact A'|]. exists (new ++ new'). split; [now rewrite B', B, app_assoc|]. intros fin Hf. specialize (C fin (Y fin Hf)). apply added_app; [exact C|].
  replace (last_id s + List.length L) with (last_id s1); [now apply C'|]. rewrite A, N, B, app_length. destruct C as [-> _]. reflexivity.
Qed.

Definition runs (t : tree) : Prop := forall s, numbered s -> exists t' s', convert false t s = Some (t', s') /\ (forall fin, ext s' fin -> became fin t t') /\ every done t' /\ grew (literals t) s s'.
Lemma runs_opt o : (forall t, o = Some t -> runs t) -> forall s, numbered s -> exists o' s', maybe (option_map (convert false) o) s = Some (o', s') /\
  (forall fin, ext s' fin -> kept (became fin) true o o') /\ (forall t, o' = Some t -> every done t) /\ grew (concat (o2l (option_map literals o))) s s'.
Proof.
  intros H s N. destruct o as [t|].
  - destruct (H t eq_refl s N) as (t' & s' & E & B & D & G). exists (Some t'), s'. split; [cbn; unfold bind; now rewrite E|]. split; [constructor; auto|]. split; [now intros ? [= <-]|].
    cbn. rewrite app_nil_r. exact G.
  - exists None, s. split; [reflexivity|]. split; [constructor|]. split; [discriminate|now apply grew_0].
Qed.
Lemma runs_all l : (forall t, In t l -> runs t) -> forall s, numbered s -> exists l' s', each (map (convert false) l) s = Some (l', s') /\
  (forall fin, ext s' fin -> Forall2 (became fin) l l') /\ (forall t, In t l' -> every done t) /\ grew (concat (map literals l)) s s'.
Proof.
  induction l as [|t l IH]; intros H s N.
  - exists [], s. split; [reflexivity|]. split; [constructor|]. split; [intros ? []|now apply grew_0].
  - destruct (H t (or_introl eq_refl) s N) as (t' & s1 & E & B & D & G). destruct (IH (fun t Ht => H t (or_intror Ht)) s1 (grew_num _ _ _ G)) as (l' & s2 & E' & B' & D' & G').
    exists (t' :: l'), s2. split; [cbn; unfold bind at 1; rewrite E; unfold bind; rewrite E'; reflexivity|]. split; [constructor; [apply B; eapply grew_ext; eauto|auto]|]. split; [intros ? [<-|Hx]; auto|].
    cbn. apply grew_trans with s1; [exact N|exact G|exact G'].
Qed.

(** The parts of a node. *)
Ltac later := intros; solve [repeat first [eassumption | eapply grew_ext; [eassumption|]]].
Lemma walked root o y l r ss ps sc : (forall k, In k (pick o l r ss ps) -> runs k) -> forall s, numbered s -> exists l' r' ss' ps' s1,
  convert root (Tree o y l r ss ps sc) s = visit names_of order dyn root (Tree o y l' r' ss' ps' sc) s1 /\
  (forall fin, ext s1 fin -> kept_parts (became fin) (Tree o y l r ss ps sc) (Tree o y l' r' ss' ps' sc)) /\ (forall k, In k (pick o l' r' ss' ps') -> every done k) /\
  grew (concat (pick o (option_map literals l) (option_map literals r) (map literals ss) (map literals ps))) s s1.
Proof.
  intros H s N.
  assert (Hl : has_left o = true -> forall t, l = Some t -> runs t).
  { intros W t ->. apply H. destruct o; try discriminate W; cbn [pick o2l]; rewrite ?in_app_iff; cbn [In]; tauto. }
  assert (Hr : has_right o = true -> forall t, r = Some t -> runs t).
  { intros W t ->. apply H. destruct o; try discriminate W; cbn [pick o2l]; rewrite ?in_app_iff; cbn [In]; tauto. }
  assert (Hs : has_stmts o = true -> forall t, In t ss -> runs t).
  { intros W t I. apply H. destruct o; try discriminate W; cbn [pick o2l]; rewrite ?in_app_iff; cbn [In]; tauto. }
  assert (Hp : has_params o = true -> forall t, In t ps -> runs t).
  { intros W t I. apply H. destruct o; try discriminate W; cbn [pick o2l]; rewrite ?in_app_iff; cbn [In]; tauto. }
  clear H.
  destruct o; cbn [HoistModel.convert pick]; cbn [has_left has_right has_stmts has_params] in Hl, Hr, Hs, Hp;
  repeat match goal with
  | _ : numbered ?s0 |- context [bind (maybe (option_map _ l)) _ ?s0] => destruct (runs_opt l (Hl eq_refl) s0) as (l1 & sl & El & Kl & Dl & Gl); [assumption|]; pose proof (grew_num _ _ _ Gl); unfold bind at 1; rewrite El; cbv beta iota
  | _ : numbered ?s0 |- context [bind (maybe (option_map _ r)) _ ?s0] => destruct (runs_opt r (Hr eq_refl) s0) as (r1 & sr & Er & Kr & Dr & Gr); [assumption|]; pose proof (grew_num _ _ _ Gr); unfold bind at 1; rewrite Er; cbv beta iota
  | _ : numbered ?s0 |- context [bind (each (map _ ss)) _ ?s0] => destruct (runs_all ss (Hs eq_refl) s0) as (ss1 & sq & Es & Ks & Ds & Gs); [assumption|]; pose proof (grew_num _ _ _ Gs); unfold bind at 1; rewrite Es; cbv beta iota
  | _ : numbered ?s0 |- context [bind (each (map _ ps)) _ ?s0] => destruct (runs_all ps (Hp eq_refl) s0) as (ps1 & sp & Ep & Kp & Dp & Gp); [assumption|]; pose proof (grew_num _ _ _ Gp); unfold bind at 1; rewrite Ep; cbv beta iota
  end;
  (do 5 eexists; split; [reflexivity|]; split;
   [intros fin Hf; constructor; first [apply Kl; later | apply Kr; later | apply kept_same; reflexivity | apply kept_all_same; reflexivity | apply kept_all_each; [reflexivity|]; first [apply Ks; later | apply Kp; later]]|]; split;
   [ intros k Hk; rewrite ?in_app_iff in Hk; unfold o2l in Hk;
     repeat match goal with
     | H : _ \/ _ |- _ => destruct H
     | H : In _ (match ?x with Some _ => _ | None => _ end) |- _ => destruct x; cbn [In] in H
     | H : In _ [] |- _ => destruct H
     | H : False |- _ => destruct H
     end; subst; auto
   | rewrite ?concat_app; repeat first [eassumption | apply grew_0; assumption | eapply grew_trans] ]).
Qed.

Definition own (t : tree) : list tree := if is_fn (t_op t) then [t] else [].
Lemma kept_callee R t f y r ss ps sc t1 : kept_parts R t t1 -> t1 = Tree OpFuncCall y f r ss ps sc -> has_callee t -> exists g, f = Some g.
Proof.
  intros K -> C. inversion K; subst. cbn in C. specialize (C eq_refl). match goal with H : kept _ _ l f |- _ => inversion H; subst end; [now destruct C|eauto|discriminate].
Qed.
Lemma global_name_dec f : global_name f \/ (~ global_name f /\ match t_sym f with Some x => s_global x = false | None => True end).
Proof.
  unfold global_name. destruct (t_sym f) as [x|]; [destruct (s_global x) eqn:G|]; [left; eauto| |]; right; (split; [|auto]); intros (z & [= E] & G'); congruence.
Qed.
Lemma dynamic_done t t1 s : (forall fin, ext s fin -> kept_parts (became fin) t t1) -> has_callee t -> (forall k, In k (parts t1) -> every done k) -> is_fn (t_op t) = false ->
  exists t', dynamic dyn t1 = Some t' /\ (forall fin, ext s fin -> became fin t t') /\ every done t'.
Proof.
  intros K C D N. pose proof (K _ (ext_own s)) as K0. assert (E : t_op t1 = t_op t) by now inversion K0; subst.
  destruct t1 as [o y l r ss ps sc]. cbn in E. assert (S : o <> OpFuncCall -> (forall fin, ext s fin -> became fin t (Tree o y l r ss ps sc)) /\ every done (Tree o y l r ss ps sc)).
  { intros W. assert (calls_global (Tree o y l r ss ps sc)) by (intros X; now destruct W). split; [intros fin Hf; apply became_same; auto|]. apply every_eq. split; [|exact D]. split; [|assumption]. unfold no_literal. cbn. now rewrite E. }
  destruct o; try (eexists; split; [reflexivity|apply S; discriminate]). clear S.
  destruct (kept_callee _ _ _ _ _ _ _ _ _ K0 eq_refl C) as (f & ->). cbn [dynamic].
  destruct (global_name_dec f) as [G|[G1 G2]].
  - exists (Tree OpFuncCall y (Some f) r ss ps sc). split; [destruct G as (x & -> & ->); reflexivity|]. assert (calls_global (Tree OpFuncCall y (Some f) r ss ps sc)) by (intros _; now exists f).
    split; [intros fin Hf; apply became_same; auto|]. apply every_eq. split; [|exact D]. split; [reflexivity|assumption].
  - exists (Tree OpFuncCall y (Some (ident dyn)) r (f :: ss) ps sc). split; [destruct (t_sym f) as [x|]; [now rewrite G2|reflexivity]|]. split; [intros fin Hf; apply became_dynamic; auto|].
    apply every_eq. split; [split; [reflexivity|]|].
    + intros _. eexists. split; [reflexivity|]. now exists dyn.
    + intros k Hk. cbn in Hk. rewrite in_app_iff in Hk. destruct Hk as [<-|[Hk|[<-|Hk]]]; [apply every_ident; split; [reflexivity|discriminate]|apply D; cbn; rewrite in_app_iff; auto..].
Qed.
Lemma visited t t1 s : numbered s -> (forall fin, ext s fin -> kept_parts (became fin) t t1) -> has_callee t -> (forall k, In k (parts t1) -> every done k) ->
  exists t' s', visit names_of order dyn false t1 s = Some (t', s') /\ (forall fin, ext s' fin -> became fin t t') /\ every done t' /\ grew (own t) s s'.
Proof.
  intros Nu K C D. pose proof (K _ (ext_own s)) as K0. assert (E : t_op t1 = t_op t) by now inversion K0; subst. unfold visit, own. rewrite E. destruct (is_fn (t_op t)) eqn:I; cbn [andb negb].
  - assert (N : no_fns t1) by now apply flat_no_fns. destruct (free_vars_ok t1 N) as (vs & Ef & _). unfold move. rewrite Ef. destruct (global_names (S (last_id s))) as (G1 & G2 & G3).
    set (h := hoisted (names_of (S (last_id s))) (order vs) t1). set (s' := State (S (last_id s)) (added s ++ [h])).
    assert (X : forall fin, ext s' fin -> ext s fin). { intros fin (more & ->). exists (h :: more). cbn. now rewrite <- app_assoc. }
    assert (Fh : flat h). { apply hoisted_flat with vs; auto. now rewrite E. }
    exists (in_place (names_of (S (last_id s))) (order vs)), s'.
    split; [|split; [|split; [apply (in_place_done (S (last_id s)) (order vs))|]]].
    + cbv beta iota. rewrite dynamic_stays; [reflexivity|]. destruct (order vs) as [|v ws]; [discriminate|]. intros _. eexists. split; [reflexivity|]. now eexists.
    + intros fin Hf. apply became_literal with t1; auto. destruct Hf as (more & ->). unfold numbered in Nu. cbn. rewrite <- app_assoc, nth_error_app2 by lia. rewrite <- Nu, Nat.sub_diag. reflexivity.
    + split; [unfold numbered; cbn; rewrite app_length, Nu; cbn; lia|]. exists [h]. split; [reflexivity|]. intros fin Hf. split; [reflexivity|]. intros [|[|i]] fn g; cbn; try discriminate. intros [= <-] [= <-]. rewrite Nat.add_0_r.
      split; [exact Fh|]. split; [apply hoisted_sym|]. exists t1, vs. auto.
  - destruct (dynamic_done t t1 s K C D I) as (t' & E' & B & D'). exists t', s. rewrite E'. split; [reflexivity|]. split; [exact B|]. split; [exact D'|now apply grew_0].
Qed.
Theorem converted t : every has_callee t -> runs t.
Proof.
  induction t as [t IH] using kids_ind. intros C s N. apply every_eq in C as [C1 C2]. destruct t as [o y l r ss ps sc].
  destruct (walked false o y l r ss ps sc (fun k Hk => IH k Hk (C2 k Hk)) s N) as (l' & r' & ss' & ps' & s1 & E & K & D & G).
  destruct (visited _ _ s1 (grew_num _ _ _ G) K C1 D) as (t' & s2 & E2 & B & D2 & G2). exists t', s2. split; [now rewrite E|]. split; [exact B|]. split; [exact D2|].
  cbn [literals]. apply grew_trans with s1; [exact N|exact G|exact G2].
Qed.

(** The roots. *)
Lemma inner_eq t : inner_literals t = match t with Tree o y l r ss ps sc => concat (pick o (option_map literals l) (option_map literals r) (map literals ss) (map literals ps)) end.
Proof. destruct t. rewrite pick_map. apply flat_map_concat_map. Qed.
Theorem root_converted t s : numbered s -> every has_callee t -> t_op t <> OpFuncCall ->
  exists t' s', convert true t s = Some (t', s') /\ (forall fin, ext s' fin -> kept_parts (became fin) t t') /\ flat t' /\ grew (inner_literals t) s s'.
Proof.
  intros N C W. apply every_eq in C as [C1 C2]. rewrite inner_eq. destruct t as [o y l r ss ps sc].
  destruct (walked true o y l r ss ps sc (fun k Hk => converted k (C2 k Hk)) s N) as (l' & r' & ss' & ps' & s1 & E & K & D & G).
  exists (Tree o y l' r' ss' ps' sc), s1. split; [|split; [exact K|split; [|exact G]]].
  - rewrite E. unfold visit. rewrite andb_false_r. cbn in W. destruct o; try reflexivity. now destruct W.
  - split; [intros X; now destruct W|exact D].
Qed.
Variable is_dyn : list Z -> bool.
Notation convert_roots := (convert_roots names_of order dyn is_dyn).
Notation root_done fin := (root_done names_of order dyn fin is_dyn).
Lemma one_root d s : numbered s -> every has_callee (snd d) -> t_op (snd d) <> OpFuncCall ->
  exists d' s', convert_root names_of order dyn is_dyn d s = Some (d', s') /\ (forall fin, ext s' fin -> root_done fin d d') /\ grew (if skipped is_dyn d then [] else inner_literals (snd d)) s s'.
Proof.
  intros N C W. assert (S : skipped is_dyn d = false -> exists d' s', bind (convert true (snd d)) (fun t => ret (fst d, t)) s = Some (d', s') /\ (forall fin, ext s' fin -> root_done fin d d') /\ grew (if skipped is_dyn d then [] else inner_literals (snd d)) s s').
  { intros Sk. unfold HoistSpec.root_done. rewrite Sk. destruct (root_converted (snd d) s N C W) as (t' & s' & E & K & F & G). exists (fst d, t'), s'. split; [unfold bind; now rewrite E|]. split; [|exact G]. intros fin Hf. auto. }
  unfold convert_root. destruct (t_op (snd d)) eqn:O; try (apply S; unfold skipped; rewrite O; reflexivity).
  destruct (is_dyn (fst d)) eqn:Y; [|apply S; unfold skipped; now rewrite O]. exists d, s. unfold HoistSpec.root_done, skipped. rewrite O, Y. repeat split; now apply grew_0.
Qed.
Theorem roots_converted ds : (forall d, In d ds -> every has_callee (snd d) /\ t_op (snd d) <> OpFuncCall) -> forall s, numbered s ->
  exists ds' s', convert_roots ds s = Some (ds', s') /\ (forall fin, ext s' fin -> Forall2 (root_done fin) ds ds') /\ grew (all_literals is_dyn ds) s s'.
Proof.
  induction ds as [|d ds IH]; intros H s N.
  - exists [], s. split; [reflexivity|]. split; [constructor|now apply grew_0].
  - destruct (H d (or_introl eq_refl)) as [C W]. destruct (one_root d s N C W) as (d' & s1 & E & R & G). destruct (IH (fun d Hd => H d (or_intror Hd)) s1 (grew_num _ _ _ G)) as (ds' & s2 & E' & R' & G').
    exists (d' :: ds'), s2. split; [cbn; unfold bind at 1; rewrite E; unfold bind; now rewrite E'|]. split; [constructor; [apply R; eapply grew_ext; eauto|auto]|]. cbn. now apply grew_trans with s1.
Qed.
Theorem roots_from_start ds : (forall d, In d ds -> every has_callee (snd d) /\ t_op (snd d) <> OpFuncCall) ->
  exists ds' s', convert_roots ds (State 0 []) = Some (ds', s') /\ Forall2 (root_done (added s')) ds ds' /\ last_id s' = List.length (added s') /\ added_for names_of order dyn (added s') 0 (all_literals is_dyn ds) (added s').
Proof.
  intros H. destruct (roots_converted ds H (State 0 []) eq_refl) as (ds' & s' & E & R & N & new & A & G). exists ds', s'. split; [exact E|]. split; [apply R, ext_own|]. split; [exact N|]. cbn in A. specialize (G _ (ext_own s')). rewrite A in *. exact G.
Qed.
End Pass.

(** What is done stays. *)
Section Again.
Variables (names_of : nat -> names) (order : list sym -> list sym) (dyn : sym).
Notation convert := (convert names_of order dyn).
Definition stays (t : tree) : Prop := forall s, convert false t s = Some (t, s).
Lemma stays_opt o : (forall t, o = Some t -> stays t) -> forall s, maybe (option_map (convert false) o) s = Some (o, s).
Proof. intros H s. destruct o as [t|]; [|reflexivity]. cbn. unfold bind. now rewrite (H t eq_refl). Qed.
Lemma stays_all l : (forall t, In t l -> stays t) -> forall s, each (map (convert false) l) s = Some (l, s).
Proof. induction l as [|t l IH]; intros H s; [reflexivity|]. cbn. unfold bind at 1. rewrite (H t (or_introl eq_refl)). unfold bind. now rewrite (IH (fun t Ht => H t (or_intror Ht))). Qed.
Lemma walked_again root o y l r ss ps sc : (forall k, In k (pick o l r ss ps) -> stays k) -> forall s,
  convert root (Tree o y l r ss ps sc) s = visit names_of order dyn root (Tree o y l r ss ps sc) s.
Proof.
  intros H s.
  assert (Hl : has_left o = true -> forall t, l = Some t -> stays t).
  { intros W t ->. apply H. destruct o; try discriminate W; cbn [pick o2l]; rewrite ?in_app_iff; cbn [In]; tauto. }
  assert (Hr : has_right o = true -> forall t, r = Some t -> stays t).
  { intros W t ->. apply H. destruct o; try discriminate W; cbn [pick o2l]; rewrite ?in_app_iff; cbn [In]; tauto. }
  assert (Hs : has_stmts o = true -> forall t, In t ss -> stays t).
  { intros W t I. apply H. destruct o; try discriminate W; cbn [pick o2l]; rewrite ?in_app_iff; cbn [In]; tauto. }
  assert (Hp : has_params o = true -> forall t, In t ps -> stays t).
  { intros W t I. apply H. destruct o; try discriminate W; cbn [pick o2l]; rewrite ?in_app_iff; cbn [In]; tauto. }
  clear H.
  destruct o; cbn [HoistModel.convert]; cbn [has_left has_right has_stmts has_params] in Hl, Hr, Hs, Hp;
  repeat match goal with
  | |- context [bind (maybe (option_map _ l)) _ ?s0] => unfold bind at 1; rewrite (stays_opt l (Hl eq_refl)); cbv beta iota
  | |- context [bind (maybe (option_map _ r)) _ ?s0] => unfold bind at 1; rewrite (stays_opt r (Hr eq_refl)); cbv beta iota
  | |- context [bind (each (map _ ss)) _ ?s0] => unfold bind at 1; rewrite (stays_all ss (Hs eq_refl)); cbv beta iota
  | |- context [bind (each (map _ ps)) _ ?s0] => unfold bind at 1; rewrite (stays_all ps (Hp eq_refl)); cbv beta iota
  end; reflexivity.
Qed.
Lemma done_stays t : every done t -> stays t.
Proof.
  induction t as [t IH] using kids_ind. intros D s. apply every_eq in D as [[D1 D2] D3]. destruct t as [o y l r ss ps sc].
  rewrite walked_again by (intros k Hk; apply IH; [exact Hk|now apply D3]). unfold visit. rewrite D1. cbn [andb]. now rewrite dynamic_stays.
Qed.
Theorem flat_stays t s : flat t -> convert true t s = Some (t, s).
Proof.
  intros [C D]. destruct t as [o y l r ss ps sc]. rewrite walked_again by (intros k Hk; apply done_stays; now apply D). unfold visit. rewrite andb_false_r. now rewrite dynamic_stays.
Qed.
End Again.

(** The list of literals has them all. *)
Lemma literals_eq t : literals t = inner_literals t ++ (if is_fn (t_op t) then [t] else []).
Proof. rewrite inner_eq. now destruct t. Qed.
Theorem literals_inside t : forall f, In f (literals t) <-> inside f t /\ is_fn (t_op f) = true.
Proof.
  induction t as [t IH] using kids_ind. intros f. rewrite literals_eq, in_app_iff. unfold inner_literals. rewrite in_flat_map. split.
  - intros [(k & Hk & Hf)|Hf].
    + apply (IH k Hk) in Hf as [Hf I]. split; [now apply inside_kid with k|exact I].
    + destruct (is_fn (t_op t)) eqn:I; [|destruct Hf]. destruct Hf as [<-|[]]. split; [constructor|exact I].
  - intros [Hf I]. inversion Hf; subst; [right; rewrite I; now left|]. left. exists k. split; [assumption|]. apply IH; auto.
Qed.
