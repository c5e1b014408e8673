(** Functions are told apart by their names and the types of their parameters (C53). *)
From Coq Require Import String List Bool PeanoNat Lia.
From Verif Require Import TypeModel TypeSpec TypeGraph CheckModel CheckSpec DeclModel DeclSpec DeclProofs.
Import ListNotations.
Local Open Scope string_scope.
Local Open Scope nat_scope.
Local Open Scope list_scope.

Local Notation "a +++ b" := (String.append a b) (at level 60, right associativity).

Lemma str_assoc : forall a b c, (a +++ b) +++ c = a +++ b +++ c.
Proof. induction a as [|x a IH]; intros b c; cbn; [reflexivity|]. now rewrite IH. Qed.
Lemma str_split : forall a b s t, a +++ s = b +++ t -> (exists d, b = a +++ d /\ s = d +++ t) \/ (exists d, a = b +++ d /\ t = d +++ s).
Proof.
  induction a as [|x a IH]; intros [|y b] s t E; cbn in E.
  - left. exists "". auto.
  - left. exists (String y b). auto.
  - right. exists (String x a). auto.
  - injection E as <- E. destruct (IH b s t E) as [(d & -> & ->)|(d & -> & ->)]; [left|right]; exists d; auto.
Qed.

(** What can come after a name. *)
Definition stops (s : string) : Prop := s = "" \/ exists c r, In c ["("; ")"; ","; "«"; "»"] /\ s = c +++ r.
Lemma word_lacks : forall x c, word x -> In c ["("; ")"; ","; "["; "«"; "»"] -> lacks c x.
Proof. intros x c [_ W] I. rewrite Forall_forall in W. apply W, I. Qed.
Definition almost_word (x : string) : Prop := Forall (fun c => lacks c x) ["("; ")"; ","; "["; "«"; "»"].
Lemma lacks_end : forall c a d r t, lacks c (a +++ d) -> d <> "" -> In c ["("; ")"; ","; "«"; "»"] -> stops t -> c +++ r = d +++ t -> False.
Proof.
  intros c a d r t L D I S E.
  assert (One : forall x, c = String x "" -> False).
  { intros x ->. destruct d as [|y d]; [congruence|]. cbn in E. injection E as <- E. apply (L a d). reflexivity. }
  assert (Two : forall x y, c = String x (String y "") -> stops (String y r) -> False).
  { intros x y -> Sy. destruct Sy as [Sy|(c' & r' & Ic & Ey)]; [discriminate|].
    cbn in Ic. repeat destruct Ic as [<-|Ic]; try contradiction; cbn in Ey; injection Ey as Ey _; subst y; cbn in I; intuition discriminate. }
  destruct d as [|x d]; [congruence|]. cbn in I. repeat destruct I as [<-|I]; try contradiction; try (eapply One; reflexivity).
  - destruct d as [|y d]; cbn in E.
    + injection E as <- E. destruct S as [->|(c & r' & Ic & ->)]; [discriminate|]. cbn in Ic. repeat destruct Ic as [<-|Ic]; try contradiction; discriminate E.
    + injection E as <- <- E. apply (L a d). reflexivity.
  - destruct d as [|y d]; cbn in E.
    + injection E as <- E. destruct S as [->|(c & r' & Ic & ->)]; [discriminate|]. cbn in Ic. repeat destruct Ic as [<-|Ic]; try contradiction; discriminate E.
    + injection E as <- <- E. apply (L a d). reflexivity.
Qed.
Lemma word_ends : forall m n s t, almost_word m -> almost_word n -> stops s -> stops t -> m +++ s = n +++ t -> m = n /\ s = t.
Proof.
  assert (H : forall m n s t d, almost_word n -> stops s -> stops t -> n = m +++ d -> s = d +++ t -> m = n /\ s = t).
  { intros m n s t d W S T N E. destruct d as [|x d].
    - assert (Z : m +++ "" = m) by (clear; induction m; cbn; congruence). rewrite Z in N. auto.
    - exfalso. destruct S as [->|(c & r & I & Es)]; [discriminate|].
      apply (lacks_end c m (String x d) r t); auto; [|discriminate|congruence].
      rewrite <- N. unfold almost_word in W. rewrite Forall_forall in W. apply W. cbn in I |- *. tauto. }
  intros m n s t M N S T E. destruct (str_split _ _ _ _ E) as [(d & A & B)|(d & A & B)].
  - eapply H; eauto.
  - destruct (H n m t s d M T S A B). auto.
Qed.
Lemma word_almost : forall x, word x -> almost_word x.
Proof. intros x [_ W]; exact W. Qed.
Lemma empty_almost : almost_word "".
Proof. unfold almost_word. repeat constructor; intros [|x a] b Q; discriminate Q. Qed.
Lemma fn_almost : almost_word "fn".
Proof. unfold almost_word. repeat constructor; intros a b Q; repeat (destruct a as [|? a]; cbn in Q; [discriminate Q|first [injection Q as _ Q|discriminate Q]]). Qed.

(** What can come after a type. *)
Definition tail (s : string) : Prop := s = "" \/ exists c r, In c [")"; ","; "»"] /\ s = c +++ r.
Lemma tail_stops : forall s, tail s -> stops s.
Proof. intros s [->|(c & r & I & ->)]; [left; reflexivity|right; exists c, r; split; [cbn in *; tauto|reflexivity]]. Qed.
Lemma open_stops : forall s, stops ("«" +++ s) /\ stops ("(" +++ s).
Proof. intros s; split; right; [exists "«", s|exists "(", s]; cbn; auto 6. Qed.

Definition one_name (x : texp) : Prop := forall y s t, words x -> words y -> tail s -> tail t ->
  type_name x +++ s = type_name y +++ t -> written_alike x y /\ s = t.

(** A type is written with something, and no bracket closes before it. *)
Lemma not_closed : forall x c s r, words x -> stops s -> In c [")"; "»"] -> type_name x +++ s <> c +++ r.
Proof.
  intros x c s r W S I E. inversion W as [n Wn|n es Wn _|es q _|e _]; subst; cbn [type_name] in E.
  - change (c +++ r) with ("" +++ c +++ r) in E. apply word_ends in E; auto using empty_almost, word_almost.
    + destruct E as [-> _]. destruct Wn as [Z _]. congruence.
    + right. exists c, r. cbn in *. tauto.
  - rewrite !str_assoc in E. change (c +++ r) with ("" +++ c +++ r) in E. apply word_ends in E; auto using empty_almost, word_almost.
    + destruct E as [-> _]. destruct Wn as [Z _]. congruence.
    + apply open_stops.
    + right. exists c, r. cbn in *. tauto.
  - cbn in I. repeat destruct I as [<-|I]; try contradiction; discriminate E.
  - cbn in I. repeat destruct I as [<-|I]; try contradiction; discriminate E.
Qed.
Lemma close_tail : forall c s, In c [")"; "»"] -> tail (c +++ s).
Proof. intros c s I; right; exists c, s; cbn in *; tauto. Qed.

Lemma join_cons : forall x y l, join ", " (x :: y :: l) = x +++ ", " +++ join ", " (y :: l).
Proof. reflexivity. Qed.
Lemma one_list : forall es, Forall one_name es -> forall fs c s t, Forall words es -> Forall words fs -> In c [")"; "»"] ->
  join ", " (map type_name es) +++ c +++ s = join ", " (map type_name fs) +++ c +++ t -> Forall2 written_alike es fs /\ s = t.
Proof.
  assert (Inj : forall c (s t : string), In c [")"; "»"] -> c +++ s = c +++ t -> s = t).
  { intros c s t I E. cbn in I. repeat destruct I as [<-|I]; try contradiction; cbn in E; congruence. }
  assert (Comma : forall c (s r : string), In c [")"; "»"] -> c +++ s <> ", " +++ r).
  { intros c s r I E. cbn in I. repeat destruct I as [<-|I]; try contradiction; cbn in E; congruence. }
  assert (Ctail : forall r, tail (", " +++ r)) by (intros r; right; exists ",", (" " +++ r); split; [cbn; tauto|reflexivity]).
  induction es as [|e es IH]; intros Q fs c s t We Wf I E.
  - destruct fs as [|f [|f2 fs]]; cbn [map] in E.
    + split; [constructor|]. exact (Inj _ _ _ I E).
    + exfalso. inversion Wf; subst. symmetry in E. revert E. cbn [join]. apply (not_closed f c); auto. apply tail_stops, close_tail, I.
    + exfalso. inversion Wf; subst. symmetry in E. rewrite join_cons, !str_assoc in E. revert E. apply (not_closed f c); auto using tail_stops.
  - inversion Q as [|? ? Qe Qs]; subst. inversion We as [|? ? We1 We2]; subst.
    destruct fs as [|f fs].
    + exfalso. destruct es as [|e2 es]; cbn [map] in E; [cbn [join] in E|rewrite join_cons, !str_assoc in E];
        revert E; apply (not_closed e c); auto using tail_stops, close_tail.
    + inversion Wf as [|? ? Wf1 Wf2]; subst. destruct es as [|e2 es], fs as [|f2 fs]; cbn [map] in E; rewrite ?join_cons, ?str_assoc in E; cbn [join] in E.
      * destruct (Qe f _ _ We1 Wf1 (close_tail c s I) (close_tail c t I) E) as [A B]. split; [repeat constructor; exact A|exact (Inj _ _ _ I B)].
      * exfalso. destruct (Qe f _ _ We1 Wf1 (close_tail c s I) (Ctail _) E) as [_ B]. exact (Comma _ _ _ I B).
      * exfalso. destruct (Qe f _ _ We1 Wf1 (Ctail _) (close_tail c t I) E) as [_ B]. symmetry in B. exact (Comma _ _ _ I B).
      * destruct (Qe f _ _ We1 Wf1 (Ctail _) (Ctail _) E) as [A B]. cbn [String.append] in B. injection B as B.
        destruct (IH Qs (f2 :: fs) c s t We2 Wf2 I B) as [C D]. split; [constructor; assumption|exact D].
Qed.

Lemma names_differ : forall x, one_name x.
Proof.
  assert (Fn : forall es q, Forall one_name es -> one_name (XFun es q)).
  { intros es q0 IH y s t Wx Wy S T E. inversion Wx; subst. destruct y as [m [fs|]|fs q|f]; cbn [type_name] in E; inversion Wy; subst; rewrite ?str_assoc in E.
    - change ("fn(" +++ join ", " (map type_name es) +++ ")" +++ s) with ("fn" +++ "(" +++ join ", " (map type_name es) +++ ")" +++ s) in E.
      apply word_ends in E; auto using word_almost, tail_stops, fn_almost; [|apply open_stops|apply open_stops]. destruct E as [_ E]. discriminate E.
    - change ("fn(" +++ join ", " (map type_name es) +++ ")" +++ s) with ("fn" +++ "(" +++ join ", " (map type_name es) +++ ")" +++ s) in E.
      apply word_ends in E; auto using word_almost, tail_stops, fn_almost; [|apply open_stops]. destruct E as [_ E].
      exfalso. destruct T as [->|(c & r & I & ->)]; [discriminate|]. cbn in I. repeat destruct I as [<-|I]; try contradiction; discriminate E.
    - cbn [String.append] in E. injection E as E. destruct (one_list es IH fs ")" s t) as [A B]; auto; [cbn; tauto|]. split; [constructor; exact A|exact B].
    - discriminate E. }
  induction x as [n|n es IH|es IH|es r IH IHr|e IH] using texp_induct; intros y s t Wx Wy S T E.
  - inversion Wx; subst. destruct y as [m [fs|]|fs q|f]; cbn [type_name] in E; inversion Wy; subst; rewrite ?str_assoc in E.
    + apply word_ends in E; auto using word_almost, tail_stops; [|apply open_stops]. destruct E as [_ E].
      exfalso. destruct S as [->|(c & r & I & ->)]; [discriminate|]. cbn in I. repeat destruct I as [<-|I]; try contradiction; discriminate E.
    + apply word_ends in E; auto using word_almost, tail_stops. destruct E as [-> ->]. split; [constructor|reflexivity].
    + change ("fn(" +++ join ", " (map type_name fs) +++ ")" +++ t) with ("fn" +++ "(" +++ join ", " (map type_name fs) +++ ")" +++ t) in E.
      apply word_ends in E; auto using word_almost, tail_stops, fn_almost; [|apply open_stops]. destruct E as [_ E].
      exfalso. destruct S as [->|(c & r & I & ->)]; [discriminate|]. cbn in I. repeat destruct I as [<-|I]; try contradiction; discriminate E.
    + exfalso. assert (L := word_lacks n "[" ltac:(assumption) ltac:(cbn; tauto)). destruct n as [|a n]; [destruct H0 as [Z _]; congruence|].
      cbn in E. injection E as -> _. apply (L "" n). reflexivity.
  - inversion Wx; subst. destruct y as [m [fs|]|fs q|f]; cbn [type_name] in E; inversion Wy; subst; rewrite ?str_assoc in E.
    + apply word_ends in E; auto using word_almost, tail_stops; [|apply open_stops|apply open_stops]. destruct E as [-> E].
      cbn [String.append] in E. injection E as E.
      destruct (one_list es IH fs "»" s t) as [A B]; auto; [cbn; tauto|]. split; [constructor; exact A|exact B].
    + apply word_ends in E; auto using word_almost, tail_stops; [|apply open_stops]. destruct E as [_ E].
      exfalso. destruct T as [->|(c & r & I & ->)]; [discriminate|]. cbn in I. repeat destruct I as [<-|I]; try contradiction; discriminate E.
    + change ("fn(" +++ join ", " (map type_name fs) +++ ")" +++ t) with ("fn" +++ "(" +++ join ", " (map type_name fs) +++ ")" +++ t) in E.
      apply word_ends in E; auto using word_almost, tail_stops, fn_almost; [|apply open_stops|apply open_stops]. destruct E as [_ E]. discriminate E.
    + exfalso. assert (L := word_lacks n "[" ltac:(assumption) ltac:(cbn; tauto)). destruct n as [|a n]; [destruct H1 as [Z _]; congruence|].
      cbn in E. injection E as -> _. apply (L "" n). reflexivity.
  - apply (Fn es None IH y s t Wx Wy S T E).
  - apply (Fn es (Some r) IH y s t Wx Wy S T E).
  - inversion Wx; subst. destruct y as [m [fs|]|fs q|f]; cbn [type_name] in E; inversion Wy; subst; rewrite ?str_assoc in E.
    + exfalso. assert (L := word_lacks m "[" ltac:(assumption) ltac:(cbn; tauto)). destruct m as [|a m]; [destruct H2 as [Z _]; congruence|].
      cbn in E. injection E as <- _. apply (L "" m). reflexivity.
    + exfalso. assert (L := word_lacks m "[" ltac:(assumption) ltac:(cbn; tauto)). destruct m as [|a m]; [destruct H1 as [Z _]; congruence|].
      cbn in E. injection E as <- _. apply (L "" m). reflexivity.
    + discriminate E.
    + cbn [String.append] in E. injection E as E. destruct (IH f s t) as [A B]; auto. split; [constructor; exact A|exact B].
Qed.

Lemma alike_names : forall x y, written_alike x y -> type_name x = type_name y.
Proof.
  assert (L : forall es, Forall (fun x => forall y, written_alike x y -> type_name x = type_name y) es ->
    forall fs, Forall2 written_alike es fs -> map type_name es = map type_name fs).
  { induction 1; intros fs H1; inversion H1; subst; cbn; f_equal; auto. }
  induction x as [n|n es IH|es IH|es r IH IHr|e IH] using texp_induct; intros y A; inversion A; subst; cbn [type_name]; try reflexivity;
    try (rewrite (L es IH fs) by assumption; reflexivity). rewrite (IH f) by assumption. reflexivity.
Qed.
Theorem functions_told_apart : forall x y ts us ps qs r q b c, word x -> word y -> Forall words (map snd ps) -> Forall words (map snd qs) ->
  (decl_name (DFn x ts ps r b) = decl_name (DFn y us qs q c) <-> x = y /\ Forall2 written_alike (map snd ps) (map snd qs)).
Proof.
  intros x y ts us ps qs r q b c Wx Wy Wp Wq. cbn [decl_name].
  assert (M : forall l, map (fun p : string * texp => type_name (snd p)) l = map type_name (map snd l)) by (intros l; rewrite map_map; reflexivity).
  rewrite !M. clear M. split.
  - intros E. apply word_ends in E; auto using word_almost; try apply open_stops. destruct E as [-> E]. split; [reflexivity|].
    cbn [String.append] in E. injection E as E.
    destruct (one_list (map snd ps)) with (fs := map snd qs) (c := ")") (s := "") (t := "") as [A _]; auto; [|cbn; tauto].
    apply Forall_forall. intros e _. apply names_differ.
  - intros [-> A]. replace (map type_name (map snd qs)) with (map type_name (map snd ps)); [reflexivity|].
    clear Wp Wq. induction A as [|e f es fs A _ IH]; cbn; [reflexivity|]. rewrite (alike_names _ _ A), IH. reflexivity.
Qed.

Lemma word_name_ok : forall x, word x -> name_ok x.
Proof. intros x W. exact (word_lacks x "(" W (or_introl eq_refl)). Qed.

Lemma nodup_index : forall {A B} (f : A -> B) l, (forall i j a b, nth_error l i = Some a -> nth_error l j = Some b -> i <> j -> f a <> f b) ->
  NoDup (map f l).
Proof.
  intros A B f; induction l as [|a l IH]; intros H; cbn; constructor.
  - intros I. apply in_map_iff in I as (b & E & I). apply In_nth_error in I as [j J]. exact (H (S j) 0 b a J eq_refl ltac:(discriminate) E).
  - apply IH. intros i j x y X Y N. apply (H (S i) (S j)); auto.
Qed.
Lemma nodup_nth : forall {A} (l : list A) i j a, NoDup l -> nth_error l i = Some a -> nth_error l j = Some a -> i = j.
Proof. intros A l i j a N I J. rewrite NoDup_nth_error in N. apply N; [apply nth_error_Some; congruence|congruence]. Qed.

(** The keys under which good declarations are looked up are different. *)
Lemma good_keys_differ : forall ds cs, good ds cs -> NoDup (map decl_name ds).
Proof.
  intros ds cs G. apply nodup_index. intros i j d e I J N E.
  assert (W : Forall word (type_names ds)).
  { pose proof (good_idents _ _ G) as H. apply Forall_app in H. exact (proj1 H). }
  assert (T : NoDup (type_names ds)).
  { pose proof (good_names _ _ G) as H. rewrite app_assoc in H. apply nodup_app_l in H.
    apply Permutation.Permutation_NoDup with (l' := type_names ds ++ taken) in H; [|apply Permutation.Permutation_app_comm]. eapply nodup_app_l, H. }
  assert (In1 : In d ds) by (eapply nth_error_In; eauto). assert (In2 : In e ds) by (eapply nth_error_In; eauto).
  assert (Ty : forall d, In d ds -> match d with DFn _ _ _ _ _ => True | _ => In (decl_name d) (type_names ds) end).
  { intros d0 I0. destruct d0; auto; unfold type_names; apply in_flat_map; eexists; (split; [exact I0|cbn; auto]). }
  assert (Name : forall d x ts ps r b, In d ds -> match d with DFn _ _ _ _ _ => False | _ => True end -> decl_name d <> decl_name (DFn x ts ps r b)).
  { intros d0 x ts ps r b I0 K Q. assert (In (decl_name d0) (type_names ds)) by (specialize (Ty d0 I0); destruct d0; tauto).
    rewrite Forall_forall in W. apply W, word_name_ok in H. rewrite Q in H. eapply H. reflexivity. }
  assert (Same : forall i j, (forall k, nth_error ds k <> None -> True) -> forall d e, nth_error ds i = Some d -> nth_error ds j = Some e -> i <> j ->
    match d with DFn _ _ _ _ _ => False | _ => True end -> match e with DFn _ _ _ _ _ => False | _ => True end -> decl_name d <> decl_name e).
  { clear -T. unfold type_names in T. revert T. induction ds as [|d0 ds IH]; intros T i j _ d e I J N K1 K2 Q; [destruct i; discriminate|].
    cbn [flat_map] in T.
    assert (Later : forall j e, nth_error ds j = Some e -> match e with DFn _ _ _ _ _ => False | _ => True end -> match d0 with DFn _ _ _ _ _ => False | _ => True end -> decl_name d0 <> decl_name e).
    { clear -T. intros j e J K2 K1 Q. apply nth_error_In in J.
      assert (In (decl_name e) (flat_map (fun d => match d with DStruct x _ _ | DEnum x _ _ => [x] | DFn _ _ _ _ _ => [] end) ds)).
      { apply in_flat_map. exists e. split; [exact J|]. destruct e; cbn; auto. }
      destruct d0; cbn in T, K1, Q; try contradiction; inversion T; subst; auto. }
    destruct i as [|i], j as [|j]; cbn in I, J; try congruence.
    - injection I as <-. eapply Later; eauto.
    - injection J as <-. apply (Later i d I K1 K2). congruence.
    - eapply (IH ltac:(destruct d0; cbn in T; [inversion T; assumption|inversion T; assumption|exact T]) i j); eauto. }
  destruct d as [x ts fs|x ts ms|x ts ps r b], e as [y us gs|y us ns|y us qs q c].
  1-2,4-5: eapply (Same i j); eauto; exact Logic.I.
  - eapply Name; [exact In1|exact Logic.I|exact E].
  - eapply Name; [exact In1|exact Logic.I|exact E].
  - symmetry in E. eapply Name; [exact In2|exact Logic.I|exact E].
  - symmetry in E. eapply Name; [exact In2|exact Logic.I|exact E].
  - destruct (good_words _ _ G _ _ _ _ _ In1) as [W1 W2]. destruct (good_words _ _ G _ _ _ _ _ In2) as [W3 W4].
    apply functions_told_apart in E; auto. destruct E as [-> E]. eapply (good_keys _ _ G i j); eauto.
Qed.
