(** Copies of trees: proofs. *)
From Coq Require Import List Arith Bool Lia.
From Verif Require Import CopyModel CopySpec.
Import ListNotations.

Definition subt (n : nat) (h : heap) (o : option addr) : option (option tree) :=
  match o with None => Some None | Some b => option_map Some (tree_at n h b) end.
Definition subc (n : nat) (h : heap) (o : option addr) : list addr := match o with None => [] | Some b => cells_of n h b end.
Lemma tree_eq n h a : tree_at (S n) h a =
  match nth_error h a with
  | None => None
  | Some c =>
      match subt n h (c_left c), subt n h (c_right c), all_some (map (subt n h) (c_stmts c)), all_some (map (subt n h) (c_params c)) with
      | Some l, Some r, Some ss, Some ps => Some (Tree (c_data c) l r ss ps)
      | _, _, _, _ => None
      end
  end.
Proof. reflexivity. Qed.
Lemma cells_eq n h a : cells_of (S n) h a =
  a :: match nth_error h a with
       | None => []
       | Some c => subc n h (c_left c) ++ subc n h (c_right c) ++ flat_map (subc n h) (c_params c) ++ flat_map (subc n h) (c_stmts c)
       end.
Proof. reflexivity. Qed.
Fixpoint tidy_list (l : list (option tree)) : list (option tree) :=
  match l with [] => [] | None :: r => tidy_list r | Some t :: r => Some (tidy t) :: tidy_list r end.
Lemma tidy_eq d l r ss ps : tidy (Tree d l r ss ps) = Tree (plain d) (option_map tidy l) (option_map tidy r) (tidy_list ss) (tidy_list ps).
Proof. reflexivity. Qed.

(** The tree depends on its cells only. *)
Lemma local n : forall h h' a, (forall b, In b (cells_of n h a) -> nth_error h' b = nth_error h b) ->
  tree_at n h' a = tree_at n h a /\ cells_of n h' a = cells_of n h a.
Proof.
  induction n as [|n IH]; intros h h' a H; [split; reflexivity|].
  rewrite cells_eq in H. rewrite !tree_eq, !cells_eq. rewrite (H a (or_introl eq_refl)). destruct (nth_error h a) as [c|]; [|split; reflexivity].
  assert (S1 : forall o, (forall b, In b (subc n h o) -> nth_error h' b = nth_error h b) -> subt n h' o = subt n h o /\ subc n h' o = subc n h o).
  { intros [b|] Hb; [|split; reflexivity]. cbn. destruct (IH h h' b Hb) as [-> ->]. split; reflexivity. }
  assert (S2 : forall l, (forall b, In b (flat_map (subc n h) l) -> nth_error h' b = nth_error h b) ->
    map (subt n h') l = map (subt n h) l /\ flat_map (subc n h') l = flat_map (subc n h) l).
  { induction l as [|o l IHl]; intros Hb; [split; reflexivity|]. cbn in *.
    destruct (S1 o) as [-> ->]; [intros b Hi; apply Hb, in_or_app; auto|]. destruct IHl as [-> ->]; [intros b Hi; apply Hb, in_or_app; auto|]. split; reflexivity. }
  destruct (S1 (c_left c)) as [-> ->]; [intros b Hb; apply H; right; rewrite !in_app_iff; tauto|].
  destruct (S1 (c_right c)) as [-> ->]; [intros b Hb; apply H; right; rewrite !in_app_iff; tauto|].
  destruct (S2 (c_params c)) as [-> ->]; [intros b Hb; apply H; right; rewrite !in_app_iff; tauto|].
  destruct (S2 (c_stmts c)) as [-> ->]; [intros b Hb; apply H; right; rewrite !in_app_iff; tauto|]. split; reflexivity.
Qed.
Lemma local_one n h h' o : (forall b, In b (subc n h o) -> nth_error h' b = nth_error h b) -> subt n h' o = subt n h o /\ subc n h' o = subc n h o.
Proof. destruct o as [b|]; intros H; [|split; reflexivity]. cbn. destruct (local n h h' b H) as [-> ->]. split; reflexivity. Qed.
Lemma local_each n h h' l : (forall b, In b (flat_map (subc n h) l) -> nth_error h' b = nth_error h b) ->
  map (subt n h') l = map (subt n h) l /\ flat_map (subc n h') l = flat_map (subc n h) l.
Proof.
  induction l as [|o l IHl]; intros Hb; [split; reflexivity|]. cbn in *.
  destruct (local_one n h h' o) as [-> ->]; [intros b Hi; apply Hb, in_or_app; auto|]. destruct IHl as [-> ->]; [intros b Hi; apply Hb, in_or_app; auto|]. split; reflexivity.
Qed.

(** A tree is within memory. *)
Lemma within n : forall h a t, tree_at n h a = Some t -> forall b, In b (cells_of n h a) -> b < length h.
Proof.
  induction n as [|n IH]; intros h a t H b Hb; [discriminate|]. rewrite tree_eq in H. rewrite cells_eq in Hb.
  destruct (nth_error h a) as [c|] eqn:E; [|discriminate]. destruct Hb as [<-|Hb]; [apply nth_error_Some; congruence|].
  assert (S1 : forall o u, subt n h o = Some u -> In b (subc n h o) -> b < length h).
  { intros [x|] u Hu Hi; [|destruct Hi]. cbn in *. destruct (tree_at n h x) eqn:Ex; [|discriminate]. eapply IH; eassumption. }
  assert (S2 : forall l u, all_some (map (subt n h) l) = Some u -> In b (flat_map (subc n h) l) -> b < length h).
  { induction l as [|o l IHl]; intros u Hu Hi; [destruct Hi|]. cbn in *. destruct (subt n h o) eqn:Eo; [|discriminate]. apply in_app_or in Hi as [Hi|Hi]; [eapply S1; eassumption|].
    destruct (all_some (map (subt n h) l)) eqn:El; [|discriminate]. eapply IHl; [reflexivity|exact Hi]. }
  destruct (subt n h (c_left c)) eqn:E1; [|discriminate]. destruct (subt n h (c_right c)) eqn:E2; [|discriminate].
  destruct (all_some (map (subt n h) (c_stmts c))) eqn:E3; [|discriminate]. destruct (all_some (map (subt n h) (c_params c))) eqn:E4; [|discriminate].
  rewrite !in_app_iff in Hb. destruct Hb as [Hb|[Hb|[Hb|Hb]]]; eauto.
Qed.

(** Memory grows, old cells stay. *)
Definition grows (h h' : heap) : Prop := length h <= length h' /\ forall b, b < length h -> nth_error h' b = nth_error h b.
Lemma grows_refl h : grows h h. Proof. split; auto. Qed.
Lemma grows_trans h1 h2 h3 : grows h1 h2 -> grows h2 h3 -> grows h1 h3.
Proof. intros [A B] [C D]. split; [lia|]. intros b Hb. rewrite D by lia. auto. Qed.
Lemma grows_tree n h h' a t : grows h h' -> tree_at n h a = Some t -> tree_at n h' a = Some t /\ cells_of n h' a = cells_of n h a.
Proof. intros G H. destruct (local n h h' a) as [-> ->]; [|auto]. intros b Hb. apply G. eapply within; eassumption. Qed.
Lemma grows_one n h h' o t : grows h h' -> subt n h o = Some t -> subt n h' o = Some t /\ subc n h' o = subc n h o.
Proof.
  intros G. destruct o as [b|]; cbn; [|auto]. destruct (tree_at n h b) as [u|] eqn:E; [|discriminate]. intros H. destruct (grows_tree n h h' b u G E) as [-> ->]. auto.
Qed.
Lemma grows_each n h h' l : grows h h' -> forall ts, all_some (map (subt n h) l) = Some ts ->
  all_some (map (subt n h') l) = Some ts /\ flat_map (subc n h') l = flat_map (subc n h) l.
Proof.
  intros G. induction l as [|o l IH]; intros ts H; cbn in *; [auto|]. destruct (subt n h o) as [u|] eqn:E; [|discriminate]. destruct (grows_one n h h' o u G E) as [-> ->].
  destruct (all_some (map (subt n h) l)) as [us|] eqn:El; [|discriminate]. destruct (IH us eq_refl) as [-> ->]. auto.
Qed.

Lemma change_length h : forall a f, length (change h a f) = length h.
Proof. induction h as [|c h IH]; intros [|a] f; cbn; auto. Qed.
Lemma change_other h : forall a f b, b <> a -> nth_error (change h a f) b = nth_error h b.
Proof. induction h as [|c h IH]; intros [|a] f [|b] H; cbn; auto; try lia. Qed.
Lemma change_same h : forall a f, nth_error (change h a f) a = option_map f (nth_error h a).
Proof. induction h as [|c h IH]; intros [|a] f; cbn; auto. Qed.

Lemma seq_join a b c : a <= b <= c -> @app addr (seq a (b - a)) (seq b (c - b)) = seq a (c - a).
Proof. intros H. replace (c - a) with ((b - a) + (c - b)) by lia. change addr with nat. rewrite seq_app. do 2 f_equal. lia. Qed.

Definition copies (n : nat) : Prop := forall h a t, tree_at n h a = Some t ->
  exists h', copy_node n h a = Some (length h, h') /\ grows h h' /\ tree_at n h' (length h) = Some (tidy t) /\
    cells_of n h' (length h) = seq (length h) (length h' - length h).

Lemma one_copied n : copies n -> forall h o t, subt n h o = Some t ->
  exists x h', copy_one (copy_node n) h o = Some (x, h') /\ grows h h' /\ subt n h' x = Some (option_map tidy t) /\ subc n h' x = seq (length h) (length h' - length h).
Proof.
  intros C h [a|] t H; cbn in *.
  - destruct (tree_at n h a) as [u|] eqn:E; [|discriminate]. injection H as <-. destruct (C h a u E) as (h' & -> & G & T & S). exists (Some (length h)), h'. cbn. rewrite T, S. auto.
  - injection H as <-. exists None, h. rewrite Nat.sub_diag. repeat split; auto.
Qed.
Lemma each_copied n : copies n -> forall l h ts, all_some (map (subt n h) l) = Some ts ->
  exists xs h', copy_each (copy_node n) h l = Some (xs, h') /\ grows h h' /\ all_some (map (subt n h') xs) = Some (tidy_list ts) /\
    flat_map (subc n h') xs = seq (length h) (length h' - length h).
Proof.
  intros C. induction l as [|o l IH]; intros h ts H; cbn in H.
  - injection H as <-. exists [], h. rewrite Nat.sub_diag. repeat split; auto.
  - destruct (subt n h o) as [u|] eqn:E; [|discriminate]. destruct (all_some (map (subt n h) l)) as [us|] eqn:El; [|discriminate]. injection H as <-.
    destruct o as [a|]; cbn in E.
    + destruct (tree_at n h a) as [t|] eqn:Ea; [|discriminate]. injection E as <-. destruct (C h a t Ea) as (h1 & E1 & G1 & T1 & S1).
      destruct (grows_each n h h1 l G1 us El) as [El1 _]. destruct (IH h1 us El1) as (xs & h2 & E2 & G2 & T2 & S2).
      exists (Some (length h) :: xs), h2. cbn. rewrite E1, E2. split; [reflexivity|]. split; [eapply grows_trans; eassumption|].
      destruct (grows_tree n h1 h2 _ _ G2 T1) as [T1' S1']. rewrite T1', T2, S1', S1, S2. split; [reflexivity|]. apply seq_join. destruct G1, G2. lia.
    + injection E as <-. cbn. apply IH. exact El.
Qed.

(** Memory grows but for the cell [k], which may change. *)
Definition keeps (k : addr) (h h' : heap) : Prop := length h <= length h' /\ forall b, b < length h -> b <> k -> nth_error h' b = nth_error h b.
Lemma keeps_grows k h h' : grows h h' -> keeps k h h'. Proof. intros [A B]. split; auto. Qed.
Lemma keeps_change k h f : keeps k h (change h k f). Proof. split; [now rewrite change_length|]. intros b _ Hb. now apply change_other. Qed.
Lemma keeps_trans k h1 h2 h3 : keeps k h1 h2 -> keeps k h2 h3 -> keeps k h1 h3.
Proof. intros [A B] [C D]. split; [lia|]. intros b Hb Hk. rewrite D by (lia || auto). auto. Qed.
Lemma keeps_one n k h h' o lo hi : keeps k h h' -> k < lo -> hi <= length h -> subc n h o = seq lo (hi - lo) ->
  subt n h' o = subt n h o /\ subc n h' o = subc n h o.
Proof. intros [_ K] H1 H2 S. apply local_one. intros b Hb. rewrite S in Hb. apply in_seq in Hb. apply K; lia. Qed.
Lemma keeps_each n k h h' l lo hi : keeps k h h' -> k < lo -> hi <= length h -> flat_map (subc n h) l = seq lo (hi - lo) ->
  map (subt n h') l = map (subt n h) l /\ flat_map (subc n h') l = flat_map (subc n h) l.
Proof. intros [_ K] H1 H2 S. apply local_each. intros b Hb. rewrite S in Hb. apply in_seq in Hb. apply K; lia. Qed.
Lemma grows_change h0 h k f : grows h0 h -> length h0 <= k -> grows h0 (change h k f).
Proof. intros [A B] Hk. split; [now rewrite change_length|]. intros b Hb. rewrite change_other by lia. auto. Qed.

Theorem copied n : copies n.
Proof.
  induction n as [|n IH]; intros h a t H; [discriminate|]. rewrite tree_eq in H. destruct (nth_error h a) as [c|] eqn:Ec; [|discriminate].
  destruct (subt n h (c_left c)) as [l|] eqn:El; [|discriminate]. destruct (subt n h (c_right c)) as [r|] eqn:Er; [|discriminate].
  destruct (all_some (map (subt n h) (c_stmts c))) as [ss|] eqn:Es; [|discriminate]. destruct (all_some (map (subt n h) (c_params c))) as [ps|] eqn:Ep; [|discriminate].
  injection H as <-. cbn [copy_node]. rewrite Ec. set (k := length h). set (h0 := h ++ [fresh (c_data c)]).
  assert (L0 : length h0 = S k) by (unfold h0, k; rewrite app_length; cbn; lia).
  assert (G0 : grows h h0) by (split; [fold k; lia|intros b Hb; unfold h0; now apply nth_error_app1]).
  assert (C0 : nth_error h0 k = Some (fresh (c_data c))) by (unfold h0, k; rewrite nth_error_app2, Nat.sub_diag by lia; reflexivity).
  (* left *)
  destruct (one_copied n IH h0 (c_left c) l (proj1 (grows_one n h h0 _ _ G0 El))) as (x1 & h1 & E1 & G1 & T1 & S1). rewrite E1. rewrite L0 in S1.
  set (h1' := change h1 k (set_left x1)).
  assert (L1 : length h1' = length h1) by apply change_length. assert (M1 : S k <= length h1) by (destruct G1; lia).
  assert (A1 : grows h h1') by (apply grows_change; [eapply grows_trans; eassumption|unfold k; lia]).
  assert (C1 : nth_error h1' k = Some (set_left x1 (fresh (c_data c)))) by (unfold h1'; rewrite change_same; rewrite (proj2 G1) by lia; now rewrite C0).
  (* right *)
  destruct (one_copied n IH h1' (c_right c) r (proj1 (grows_one n h h1' _ _ A1 Er))) as (x2 & h2 & E2 & G2 & T2 & S2). rewrite E2. rewrite L1 in S2.
  set (h2' := change h2 k (set_right x2)).
  assert (L2 : length h2' = length h2) by apply change_length. assert (M2 : length h1 <= length h2) by (destruct G2; lia).
  assert (A2 : grows h h2') by (apply grows_change; [eapply grows_trans; eassumption|unfold k; lia]).
  assert (C2 : nth_error h2' k = Some (set_right x2 (set_left x1 (fresh (c_data c))))) by (unfold h2'; rewrite change_same; rewrite (proj2 G2) by lia; now rewrite C1).
  (* parameters *)
  destruct (each_copied n IH (c_params c) h2' ps (proj1 (grows_each n h h2' _ A2 _ Ep))) as (x3 & h3 & E3 & G3 & T3 & S3). rewrite E3. rewrite L2 in S3.
  set (h3' := change h3 k (set_params x3)).
  assert (L3 : length h3' = length h3) by apply change_length. assert (M3 : length h2 <= length h3) by (destruct G3; lia).
  assert (A3 : grows h h3') by (apply grows_change; [eapply grows_trans; eassumption|unfold k; lia]).
  assert (C3 : nth_error h3' k = Some (set_params x3 (set_right x2 (set_left x1 (fresh (c_data c)))))) by (unfold h3'; rewrite change_same; rewrite (proj2 G3) by lia; now rewrite C2).
  (* statements *)
  destruct (each_copied n IH (c_stmts c) h3' ss (proj1 (grows_each n h h3' _ A3 _ Es))) as (x4 & h4 & E4 & G4 & T4 & S4). rewrite E4. rewrite L3 in S4.
  set (h4' := change h4 k (set_stmts x4)).
  assert (L4 : length h4' = length h4) by apply change_length. assert (M4 : length h3 <= length h4) by (destruct G4; lia).
  assert (A4 : grows h h4') by (apply grows_change; [eapply grows_trans; eassumption|unfold k; lia]).
  assert (C4 : nth_error h4' k = Some (set_stmts x4 (set_params x3 (set_right x2 (set_left x1 (fresh (c_data c))))))) by (unfold h4'; rewrite change_same; rewrite (proj2 G4) by lia; now rewrite C3).
  (* all parts as they are at the end *)
  assert (K4 : keeps k h4 h4') by apply keeps_change.
  assert (K3 : keeps k h3 h4') by (eapply keeps_trans; [apply keeps_change|eapply keeps_trans; [apply keeps_grows, G4|exact K4]]).
  assert (K2 : keeps k h2 h4') by (eapply keeps_trans; [apply keeps_change|eapply keeps_trans; [apply keeps_grows, G3|exact K3]]).
  assert (K1 : keeps k h1 h4') by (eapply keeps_trans; [apply keeps_change|eapply keeps_trans; [apply keeps_grows, G2|exact K2]]).
  destruct (keeps_one n k h1 h4' x1 (S k) (length h1) K1) as [T1' S1']; [lia|lia|exact S1|].
  destruct (keeps_one n k h2 h4' x2 (length h1) (length h2) K2) as [T2' S2']; [lia|lia|exact S2|].
  destruct (keeps_each n k h3 h4' x3 (length h2) (length h3) K3) as [T3' S3']; [lia|lia|exact S3|].
  destruct (keeps_each n k h4 h4' x4 (length h3) (length h4) K4) as [T4' S4']; [lia|lia|exact S4|].
  exists h4'. split; [reflexivity|]. split; [exact A4|]. rewrite tree_eq, cells_eq, C4. cbn [set_left set_right set_params set_stmts fresh c_left c_right c_params c_stmts c_data].
  rewrite T1', T2', T3', T4', T1, T2, T3, T4, S1', S2', S3', S4', S1, S2, S3, S4. split; [rewrite tidy_eq; reflexivity|].
  rewrite (seq_join (length h2) (length h3) (length h4)) by lia. rewrite (seq_join (length h1) (length h2) (length h4)) by lia. rewrite (seq_join (S k) (length h1) (length h4)) by lia.
  rewrite L4. replace (length h4 - k) with (S (length h4 - S k)) by lia. reflexivity.
Qed.

(** More fuel does not matter. *)
Lemma tree_more n : forall m h a t, tree_at n h a = Some t -> n <= m -> tree_at m h a = Some t.
Proof.
  induction n as [|n IH]; intros m h a t H L; [discriminate|]. destruct m as [|m]; [lia|]. rewrite tree_eq in *. destruct (nth_error h a) as [c|]; [|discriminate].
  assert (S1 : forall o u, subt n h o = Some u -> subt m h o = Some u).
  { intros [b|] u Hu; cbn in *; [|exact Hu]. destruct (tree_at n h b) eqn:E; [|discriminate]. rewrite (IH m h b _ E) by lia. exact Hu. }
  assert (S2 : forall l u, all_some (map (subt n h) l) = Some u -> all_some (map (subt m h) l) = Some u).
  { induction l as [|o l IHl]; intros u Hu; cbn in *; [exact Hu|]. destruct (subt n h o) eqn:E; [|discriminate]. rewrite (S1 _ _ E).
    destruct (all_some (map (subt n h) l)) eqn:El; [|discriminate]. now rewrite (IHl _ eq_refl). }
  destruct (subt n h (c_left c)) eqn:E1; [|discriminate]. destruct (subt n h (c_right c)) eqn:E2; [|discriminate].
  destruct (all_some (map (subt n h) (c_stmts c))) eqn:E3; [|discriminate]. destruct (all_some (map (subt n h) (c_params c))) eqn:E4; [|discriminate].
  now rewrite (S1 _ _ E1), (S1 _ _ E2), (S2 _ _ E3), (S2 _ _ E4).
Qed.

(** Only trees are copied. *)
Definition pointers (c : cell) : list (option addr) := c_left c :: c_right c :: c_stmts c ++ c_params c.
Definition no_dangling (h : heap) : Prop := forall c b, In c h -> In (Some b) (pointers c) -> b < length h.
Lemma only_trees n : forall base h a, no_dangling base -> grows base h -> a < length base -> copy_node n h a <> None -> exists t, tree_at n base a = Some t.
Proof.
  induction n as [|n IH]; intros base h a D G La H; [now destruct H|]. cbn [copy_node] in H. rewrite tree_eq.
  rewrite (proj2 G a La) in H. destruct (nth_error base a) as [c|] eqn:Ec; [|now destruct H].
  assert (Dc : forall b, In (Some b) (pointers c) -> b < length base) by (intros b; apply D; eapply nth_error_In; eassumption). unfold pointers in Dc. cbn [In] in Dc.
  assert (S1 : forall o h1, grows base h1 -> (forall b, o = Some b -> b < length base) -> copy_one (copy_node n) h1 o <> None -> exists u, subt n base o = Some u).
  { intros [b|] h1 G1 Hb H1; cbn in *; [|eauto]. destruct (IH base h1 b D G1 (Hb b eq_refl)) as [u Hu]; [destruct (copy_node n h1 b) as [[]|]; congruence|]. rewrite Hu. cbn. eauto. }
  assert (S2 : forall l h1, grows base h1 -> (forall b, In (Some b) l -> b < length base) -> copy_each (copy_node n) h1 l <> None -> exists us, all_some (map (subt n base) l) = Some us).
  { induction l as [|[b|] l IHl]; intros h1 G1 Hb H1; cbn in *; [eauto| |].
    - destruct (copy_node n h1 b) as [[x h2]|] eqn:E; [|now destruct H1]. destruct (IH base h1 b D G1 (Hb b (or_introl eq_refl))) as [u Hu]; [congruence|]. rewrite Hu. cbn.
      destruct (copied n h1 b u (proj1 (grows_tree n base h1 b u G1 Hu))) as (h2' & E' & G2 & _). rewrite E in E'. injection E' as -> ->.
      destruct (IHl h2') as [us Hus]; [eapply grows_trans; eassumption|auto|destruct (copy_each (copy_node n) h2' l) as [[]|]; congruence|]. rewrite Hus. cbn. eauto.
    - destruct (IHl h1 G1) as [us Hus]; [auto|exact H1|]. rewrite Hus. cbn. eauto. }
  set (k := length h) in *. assert (Lk : length base <= k) by apply G.
  set (h0 := h ++ [fresh (c_data c)]) in *. assert (G0 : grows base h0) by (eapply grows_trans; [exact G|]; split; [unfold h0; rewrite app_length; lia|intros b Hb; unfold h0; now apply nth_error_app1]).
  destruct (S1 (c_left c) h0 G0) as [l Hl]; [intros b Eb; apply Dc; auto|intros E; rewrite E in H; now destruct H|].
  destruct (one_copied n (copied n) h0 _ l (proj1 (grows_one n base h0 _ _ G0 Hl))) as (x1 & h1 & E1 & G1 & _). rewrite E1 in H.
  assert (A1 : grows base (change h1 k (set_left x1))) by (apply grows_change; [eapply grows_trans; eassumption|exact Lk]). set (h1' := change h1 k (set_left x1)) in *.
  destruct (S1 (c_right c) h1' A1) as [r Hr]; [intros b Eb; apply Dc; auto|intros E; rewrite E in H; now destruct H|].
  destruct (one_copied n (copied n) h1' _ r (proj1 (grows_one n base h1' _ _ A1 Hr))) as (x2 & h2 & E2 & G2 & _). rewrite E2 in H.
  assert (A2 : grows base (change h2 k (set_right x2))) by (apply grows_change; [eapply grows_trans; eassumption|exact Lk]). set (h2' := change h2 k (set_right x2)) in *.
  destruct (S2 (c_params c) h2' A2) as [ps Hp]; [intros b Hb; apply Dc; rewrite in_app_iff; auto|intros E; rewrite E in H; now destruct H|].
  destruct (each_copied n (copied n) _ h2' ps (proj1 (grows_each n base h2' _ A2 _ Hp))) as (x3 & h3 & E3 & G3 & _). rewrite E3 in H.
  assert (A3 : grows base (change h3 k (set_params x3))) by (apply grows_change; [eapply grows_trans; eassumption|exact Lk]). set (h3' := change h3 k (set_params x3)) in *.
  destruct (S2 (c_stmts c) h3' A3) as [ss Hs]; [intros b Hb; apply Dc; rewrite in_app_iff; auto|intros E; rewrite E in H; now destruct H|].
  rewrite Hl, Hr, Hs, Hp. eauto.
Qed.
