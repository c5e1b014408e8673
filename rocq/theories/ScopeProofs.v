(** Lemmas for C10: the tables of ScopeModel behave as the scopes of ScopeSpec. *)
From Coq Require Import String List Bool PeanoNat Lia.
From Verif Require Import ScopeModel ScopeSpec.
Import ListNotations.

Definition entries (sc : scope) : list (string * symbol) := map (fun s => (sy_name s, s)) sc.

Lemma map_get_entries : forall sc name, map_get (entries sc) name = declared sc name.
Proof.
  unfold declared. induction sc as [|s sc IH]; intro name; cbn; [reflexivity|].
  destruct (String.eqb (sy_name s) name); [reflexivity|apply IH].
Qed.

Lemma length_set_nth : forall {A} (l : list A) i x, length (set_nth l i x) = length l.
Proof. induction l as [|y l IH]; intros [|i] x; cbn; auto. Qed.

Lemma nth_set_nth : forall {A} (l : list A) i j x d, i < length l ->
  nth j (set_nth l i x) d = if j =? i then x else nth j l d.
Proof.
  induction l as [|y l IH]; intros [|i] [|j] x d H; cbn in *; try lia; try reflexivity.
  apply IH. lia.
Qed.

(** Table [i] of [st] and its ancestors hold the scopes. *)
Inductive rep (st : store) : nat -> list scope -> Prop :=
| rep_root : forall i sc, i < length st -> tb_parent (at_table st i) = None ->
    tb_symbols (at_table st i) = entries sc -> rep st i [sc]
| rep_in : forall i p sc outer, i < length st -> p < i -> tb_parent (at_table st i) = Some p ->
    tb_symbols (at_table st i) = entries sc -> rep st p outer -> rep st i (sc :: outer).

Lemma rep_lt : forall st i scs, rep st i scs -> i < length st.
Proof. intros st i scs H; destruct H; assumption. Qed.

Lemma rep_nonempty : forall st i scs, rep st i scs -> exists sc outer, scs = sc :: outer.
Proof. intros st i scs H; destruct H; eauto. Qed.

(** A store that agrees with another one up to table [i], as far as parents and
    symbols go. *)
Lemma rep_agree : forall st st' i scs, length st <= length st' ->
  (forall j, j <= i -> tb_parent (at_table st' j) = tb_parent (at_table st j) /\
                       tb_symbols (at_table st' j) = tb_symbols (at_table st j)) ->
  rep st i scs -> rep st' i scs.
Proof.
  intros st st' i scs Hl Ha H. induction H as [i sc Hi Hp Hs|i p sc outer Hi Hpi Hp Hs Ho IH].
  - destruct (Ha i (le_n i)) as [E1 E2]. apply rep_root; [lia|congruence|congruence].
  - destruct (Ha i (le_n i)) as [E1 E2]. apply rep_in with p; [lia|lia|congruence|congruence|].
    apply IH. intros j Hj. apply Ha. lia.
Qed.

Lemma resolve_rep : forall st i scs, rep st i scs -> forall fuel name, i < fuel ->
  resolve fuel st i name = Some (meaning scs name).
Proof.
  induction 1 as [i sc Hi Hp Hs|i p sc outer Hi Hpi Hp Hs Ho IH]; intros [|fuel] name Hf; try lia;
    cbn [resolve meaning]; rewrite Hs, Hp, map_get_entries; destruct (declared sc name); try reflexivity.
  apply IH. lia.
Qed.

Lemma resolve_all_rep : forall st i scs, rep st i scs -> forall fuel name pred, i < fuel ->
  resolve_all fuel st i name pred = Some (meaning_such scs name pred).
Proof.
  induction 1 as [i sc Hi Hp Hs|i p sc outer Hi Hpi Hp Hs Ho IH]; intros [|fuel] name pred Hf; try lia;
    cbn [resolve_all meaning_such]; rewrite Hs, Hp, map_get_entries; destruct (declared sc name);
    try destruct (pred s); try reflexivity; apply IH; lia.
Qed.

Lemma rep_top : forall st i scs, rep st i scs ->
  tb_symbols (at_table st i) = entries (top scs).
Proof. intros st i scs H; destruct H; assumption. Qed.

Lemma at_set_nth : forall st i j t, i < length st ->
  at_table (set_nth st i t) j = if j =? i then t else at_table st j.
Proof. intros. unfold at_table. apply nth_set_nth. assumption. Qed.

Lemma at_app : forall st t j, j < length st -> at_table (st ++ [t]) j = at_table st j.
Proof. intros. unfold at_table. apply app_nth1. assumption. Qed.

Lemma step_rep : forall st i scs o, rep st i scs ->
  snd (step (st, i) o) = snd (spec_step scs o) /\
  rep (fst (fst (step (st, i) o))) (snd (fst (step (st, i) o))) (fst (spec_step scs o)).
Proof.
  intros st i scs o H. assert (Hi := rep_lt _ _ _ H).
  destruct o as [| |s|name|name pred|s]; cbn [step spec_step].
  - unfold new_child. cbn [fst snd]. split; [reflexivity|].
    apply rep_in with i.
    + rewrite app_length, length_set_nth. cbn. lia.
    + exact Hi.
    + unfold at_table. rewrite app_nth2; rewrite length_set_nth; [|lia].
      rewrite Nat.sub_diag. reflexivity.
    + unfold at_table. rewrite app_nth2; rewrite length_set_nth; [|lia].
      rewrite Nat.sub_diag. reflexivity.
    + apply rep_agree with st; [rewrite app_length, length_set_nth; cbn; lia| |exact H].
      intros j Hj. rewrite at_app by (rewrite length_set_nth; lia).
      rewrite at_set_nth by exact Hi. destruct (Nat.eqb_spec j i) as [->|]; cbn; auto.
  - cbn [fst snd]. split; [reflexivity|]. unfold parent.
    destruct H as [i sc Hi' Hp Hs|i p sc outer Hi' Hpi Hp Hs Ho]; rewrite Hp.
    + apply rep_root; assumption.
    + destruct (rep_nonempty _ _ _ Ho) as [sc' [outer' ->]]. exact Ho.
  - unfold define. rewrite (rep_top _ _ _ H), map_get_entries.
    destruct (declared (top scs) (sy_name s)) as [s'|]; cbn [fst snd]; (split; [reflexivity|]); [exact H|].
    assert (A : forall t, length (set_nth st i t) = length st) by (intro; apply length_set_nth).
    destruct H as [i sc Hi' Hp Hs|i p sc outer Hi' Hpi Hp Hs Ho]; cbn [top hd tl].
    + apply rep_root; rewrite ?A, ?at_set_nth, ?Nat.eqb_refl by exact Hi; [exact Hi|exact Hp|reflexivity].
    + apply rep_in with p; rewrite ?A, ?at_set_nth, ?Nat.eqb_refl by exact Hi; try assumption; [reflexivity|].
      apply rep_agree with st; [rewrite A; lia| |exact Ho].
      intros j Hj. rewrite at_set_nth by exact Hi.
      destruct (Nat.eqb_spec j i); [lia|]. auto.
  - cbn [fst snd]. split; [|exact H]. rewrite (resolve_rep _ _ _ H) by exact Hi. reflexivity.
  - cbn [fst snd]. split; [|exact H]. rewrite (resolve_all_rep _ _ _ H) by exact Hi. reflexivity.
  - cbn [fst snd]. split; [|exact H]. unfold owns. rewrite (rep_top _ _ _ H), map_get_entries. reflexivity.
Qed.

Lemma run_rep : forall ops st i scs, rep st i scs ->
  snd (run (st, i) ops) = snd (spec_run scs ops) /\
  rep (fst (fst (run (st, i) ops))) (snd (fst (run (st, i) ops))) (fst (spec_run scs ops)).
Proof.
  induction ops as [|o ops IH]; intros st i scs H; [split; [reflexivity|exact H]|].
  cbn [run spec_run].
  destruct (step_rep st i scs o H) as [Ha Hr].
  destruct (step (st, i) o) as [[st1 i1] a]. destruct (spec_step scs o) as [sc1 a']. cbn [fst snd] in Ha, Hr.
  destruct (IH st1 i1 sc1 Hr) as [Ha2 Hr2].
  destruct (run (st1, i1) ops) as [[st2 i2] l]. destruct (spec_run sc1 ops) as [sc2 l'].
  cbn [fst snd] in *. split; [congruence|exact Hr2].
Qed.

Lemma rep_new : rep new_symtab 0 [[]].
Proof. apply rep_root; [cbn; lia|reflexivity|reflexivity]. Qed.

Lemma scoping : forall ops, snd (run (new_symtab, 0) ops) = snd (spec_run [[]] ops).
Proof. intro ops. apply (run_rep ops _ _ _ rep_new). Qed.

(** Running two histories one after the other. *)
Lemma run_app : forall h1 h2 c,
  run c (h1 ++ h2) =
  (fst (run (fst (run c h1)) h2), snd (run c h1) ++ snd (run (fst (run c h1)) h2)).
Proof.
  induction h1 as [|o h1 IH]; intros h2 c; cbn [app run].
  - cbn [fst snd app]. destruct (run c h2); reflexivity.
  - destruct (step c o) as [c1 a]. rewrite IH. destruct (run c1 h1) as [c2 l]. cbn [fst snd].
    reflexivity.
Qed.

Lemma spec_run_app : forall h1 h2 c,
  spec_run c (h1 ++ h2) =
  (fst (spec_run (fst (spec_run c h1)) h2), snd (spec_run c h1) ++ snd (spec_run (fst (spec_run c h1)) h2)).
Proof.
  induction h1 as [|o h1 IH]; intros h2 c; cbn [app spec_run].
  - cbn [fst snd app]. destruct (spec_run c h2); reflexivity.
  - destruct (spec_step c o) as [c1 a]. rewrite IH. destruct (spec_run c1 h1) as [c2 l]. cbn [fst snd].
    reflexivity.
Qed.

Lemma spec_step_plain : forall o sc outer, o <> Open -> o <> Close ->
  exists sc', fst (spec_step (sc :: outer) o) = sc' :: outer.
Proof.
  intros [| |s|name|name pred|s] sc outer H1 H2; try congruence; cbn [spec_step fst]; eauto.
  cbn [top hd tl]. destruct (declared sc (sy_name s)); cbn [fst]; eauto.
Qed.

Lemma spec_balanced : forall h, balanced h -> forall sc outer,
  exists sc', fst (spec_run (sc :: outer) h) = sc' :: outer.
Proof.
  induction 1 as [|o h H1 H2 H IH|h h' H IH H' IH']; intros sc outer.
  - exists sc. reflexivity.
  - destruct (spec_step_plain o sc outer H1 H2) as [sc1 E].
    cbn [spec_run]. destruct (spec_step (sc :: outer) o) as [s1 a]. cbn [fst] in E. subst s1.
    destruct (IH sc1 outer) as [sc2 E2]. destruct (spec_run (sc1 :: outer) h). exists sc2. exact E2.
  - change (Open :: h ++ Close :: h') with ([Open] ++ (h ++ ([Close] ++ h'))).
    rewrite !spec_run_app. cbn [fst snd]. change (fst (spec_run (sc :: outer) [Open])) with (@cons scope [] (sc :: outer)).
    destruct (IH [] (sc :: outer)) as [sc1 E1]. rewrite E1.
    change (fst (spec_run (sc1 :: sc :: outer) [Close])) with (sc :: outer).
    apply IH'.
Qed.

(** A scope opened and closed again leaves the scopes as they were. *)
Lemma spec_scope_restores : forall h, balanced h -> forall scs, scs <> [] ->
  fst (spec_run scs (Open :: h ++ [Close])) = scs.
Proof.
  intros h H scs Hs. destruct scs as [|sc outer]; [congruence|].
  change (Open :: h ++ [Close]) with ([Open] ++ (h ++ [Close])).
  rewrite !spec_run_app. cbn [fst snd]. change (fst (spec_run (sc :: outer) [Open])) with (@cons scope [] (sc :: outer)).
  destruct (spec_balanced h H [] (sc :: outer)) as [sc1 E1]. rewrite E1. reflexivity.
Qed.

Lemma scope_restores : forall before inside after, balanced inside ->
  snd (run (fst (run (new_symtab, 0) (before ++ Open :: inside ++ [Close]))) after) =
  snd (run (fst (run (new_symtab, 0) before)) after).
Proof.
  intros before inside after Hb.
  destruct (run_rep before _ _ _ rep_new) as [_ R1].
  destruct (run_rep (before ++ Open :: inside ++ [Close]) _ _ _ rep_new) as [_ R2].
  assert (E : fst (spec_run [[]] (before ++ Open :: inside ++ [Close])) = fst (spec_run [[]] before)).
  { rewrite spec_run_app. cbn [fst]. apply spec_scope_restores; [exact Hb|].
    destruct (rep_nonempty _ _ _ R1) as [a [b E]]. rewrite E. discriminate. }
  rewrite E in R2.
  destruct (fst (run (new_symtab, 0) before)) as [st1 i1].
  destruct (fst (run (new_symtab, 0) (before ++ Open :: inside ++ [Close]))) as [st2 i2].
  cbn [fst snd] in R1, R2.
  destruct (run_rep after _ _ _ R1) as [A1 _]. destruct (run_rep after _ _ _ R2) as [A2 _]. congruence.
Qed.

(** A rejected declaration changes nothing at all, an accepted one only what the
    name means in its own scope. *)
Lemma redeclaration : forall st i s st' s' found, define st i s = (st', s', found) ->
  (found = true -> st' = st) /\
  (found = true <-> map_get (tb_symbols (at_table st i)) (sy_name s) <> None).
Proof.
  intros st i s st' s' found E. unfold define in E.
  destruct (map_get _ _); inversion E; subst; split; try split; intros; auto; congruence.
Qed.
