(** Locations of tokens. *)
From Coq Require Import Ascii String ZArith List Bool Lia.
From Verif Require Import LexModel LexSpec LexProofs LexRun LexDet LexLayout.
Import ListNotations.
Open Scope Z_scope.

Lemma utf8_first_size b sz lo hi : utf8_first b = Some (sz, lo, hi) ->
  (sz = 2 \/ sz = 3 \/ sz = 4)%nat /\ 128 <= lo.
Proof.
  unfold utf8_first.
  repeat match goal with |- context [if ?c then _ else _] => destruct c end;
  intros E; inversion E; subst; split; auto; lia.
Qed.

(** Decoding does not look beyond the sequence it returns. *)
Lemma decode_prefix s r w n : decode_rune s = (r, w) -> (1 <= w <= n)%nat ->
  decode_rune (firstn n s) = (r, w).
Proof.
  intros H Hn.
  destruct s as [|b0 s]; [destruct n; exact H|].
  destruct n as [|n]; [lia|].
  simpl firstn. unfold decode_rune in *.
  destruct (b0 <? 128); auto.
  destruct (utf8_first b0) as [[[sz lo] hi]|] eqn:Eu; auto.
  apply utf8_first_size in Eu. destruct Eu as [Hsz _].
  destruct s as [|b1 [|b2 [|b3 s]]], n as [|[|[|n]]]; destruct Hsz as [E|[E|E]]; subst sz;
    simpl in H |- *;
    repeat match type of H with context [if ?c then _ else _] => destruct c end;
    simpl; auto; inversion H; subst; auto; lia.
Qed.

(** Multi-byte sequences contain no ASCII byte. *)
Lemma decode_high s r w : decode_rune s = (r, w) -> (2 <= w)%nat ->
  Forall (fun b => 128 <= b) (firstn w s).
Proof.
  intros H Hw. unfold decode_rune in H.
  destruct s as [|b0 s]; [inversion H; lia|].
  destruct (b0 <? 128) eqn:E0; [inversion H; lia|].
  destruct (utf8_first b0) as [[[sz lo] hi]|] eqn:Eu; [|inversion H; lia].
  apply utf8_first_size in Eu. destruct Eu as [Hsz Hlo].
  unfold cont_byte in H.
  destruct s as [|b1 [|b2 [|b3 s]]]; destruct Hsz as [E|[E|E]]; subst sz; simpl in H;
    repeat match type of H with context [if ?c then _ else _] => destruct c eqn:? end;
    inversion H; subst; simpl; try lia; repeat constructor;
    repeat match goal with X : negb _ = false |- _ => apply negb_false_iff in X
      | X : _ && _ = true |- _ => apply andb_true_iff in X; destruct X
      | X : _ || _ = false |- _ => apply orb_false_iff in X; destruct X end; lia.
Qed.

Lemma chars_prefix s cs : chars_of s cs -> forall a b, cs = a ++ b ->
  chars_of (bytes_of a) a.
Proof.
  induction 1 as [|s r w cs Hne Hd Hcs IH]; intros a b E.
  - destruct a; [constructor|discriminate].
  - destruct a as [|c a]; [constructor|]. inversion E; subst. clear E.
    assert (Hw := decode_width _ _ _ Hne Hd).
    assert (Ha := IH a b eq_refl).
    assert (Es : bytes_of ((r, firstn w s) :: a) = firstn (w + length (bytes_of a)) s).
    { rewrite <- (firstn_skipn w s) at 2. unfold bytes_of in *. simpl.
      rewrite firstn_app, firstn_length, Nat.min_l by lia.
      rewrite (firstn_all2 (firstn w s)) by (rewrite firstn_length; lia).
      f_equal. replace (w + _ - w)%nat with (length (concat (map snd a))) by lia.
      pose proof (chars_bytes _ _ Hcs) as Eb. unfold bytes_of in Eb. rewrite map_app, concat_app in Eb.
      rewrite <- Eb, firstn_app, Nat.sub_diag, firstn_all. simpl. rewrite app_nil_r. reflexivity. }
    match goal with |- chars_of ?x _ => change x with (bytes_of ((r, firstn w s) :: a)) end. rewrite Es.
    replace (firstn w s) with (firstn w (firstn (w + length (bytes_of a)) s))
      by (rewrite firstn_firstn; f_equal; lia).
    constructor.
    + destruct s; [congruence|]. destruct w; [lia|]. discriminate.
    + apply decode_prefix; auto. lia.
    + rewrite <- Es. unfold bytes_of at 1. simpl.
      rewrite skipn_app, skipn_all2 by (rewrite firstn_length; lia). simpl.
      rewrite firstn_length, Nat.min_l, Nat.sub_diag by lia. simpl. exact Ha.
Qed.

Lemma chars_suffix s cs : chars_of s cs -> forall a b, cs = a ++ b -> chars_of (bytes_of b) b.
Proof.
  induction 1 as [|s r w cs Hne Hd Hcs IH]; intros a b E.
  - destruct a; [|discriminate]. simpl in E. subst. constructor.
  - destruct a as [|c a]; simpl in E.
    + subst b. rewrite (chars_bytes s); econstructor; eauto.
    + inversion E; subst. eauto.
Qed.

(** Characters hold a newline byte only as the newline character. *)
Definition clean (c : uchar) : Prop := (In 10 (snd c) -> snd c = [10] /\ fst c = 10) /\ (fst c = 10 -> snd c = [10]).

Lemma chars_clean s cs : Forall is_byte s -> chars_of s cs -> Forall clean cs.
Proof.
  intros Hb H. induction H as [|s r w cs Hne Hd Hcs IH]; constructor.
  - destruct (decode_rune_range _ _ _ Hb Hne Hd) as (H0 & H1 & H2).
    assert (Hw := decode_width _ _ _ Hne Hd).
    split; simpl.
    + intros Hin. destruct (Nat.eq_dec w 1) as [->|N].
      * destruct s as [|b t]; [congruence|]. simpl in *. destruct Hin as [->|[]].
        split; auto. apply H2. lia.
      * pose proof (decode_high _ _ _ Hd ltac:(lia)) as Hf.
        rewrite Forall_forall in Hf. apply Hf in Hin. lia.
    + intros ->. destruct (H1 ltac:(lia)) as [-> E]. destruct s as [|b t]; [congruence|]. simpl in E. subst b. reflexivity.
  - apply IH. apply skipn_forall; auto.
Qed.

Lemma rune_count_chars s cs : chars_of s cs -> forall n, (length s <= n)%nat -> rune_count n s = length cs.
Proof.
  induction 1 as [|s r w cs Hne Hd Hcs IH]; intros n Hn.
  - destruct n; reflexivity.
  - assert (Hw := decode_width _ _ _ Hne Hd).
    destruct s as [|b s]; [congruence|]. destruct n as [|n]; [simpl in Hn; lia|].
    change (rune_count (S n) (b :: s)) with (S (rune_count n (skipn (snd (decode_rune (b :: s))) (b :: s)))).
    rewrite Hd. simpl length. f_equal. apply IH.
    cbn [snd]. rewrite skipn_length. cbn [length] in *. lia.
Qed.

Lemma bytes_app a b : bytes_of (a ++ b) = bytes_of a ++ bytes_of b.
Proof. unfold bytes_of. rewrite map_app, concat_app. reflexivity. Qed.

Lemma bytes_cons c a : bytes_of (c :: a) = snd c ++ bytes_of a.
Proof. reflexivity. Qed.

Lemma last_newline_from_none s : ~ In 10 s -> forall i acc, last_newline_from i s acc = acc.
Proof.
  induction s as [|b s IH]; intros H i acc; simpl; auto.
  destruct (b =? 10) eqn:E; [exfalso; apply H; left; lia|]. apply IH. intros X; apply H; right; auto.
Qed.

Lemma last_newline_from_app a : forall s i acc,
  last_newline_from i (a ++ s) acc = last_newline_from (i + length a) s (last_newline_from i a acc).
Proof.
  induction a as [|b a IH]; intros; simpl.
  - f_equal; lia.
  - rewrite IH. f_equal. lia.
Qed.

Lemma clean_no_newline cs : Forall clean cs -> Forall (fun c => fst c <> 10) cs -> ~ In 10 (bytes_of cs).
Proof.
  induction 1 as [|c cs [Hc _] Hcs IH]; intros Hn; [intros []|].
  inversion Hn; subst. rewrite bytes_cons, in_app_iff. intros [X|X]; [|apply IH; auto].
  apply Hc in X. tauto.
Qed.

Lemma split_last_newline (cs : list uchar) : Forall (fun c => fst c <> 10) cs \/
  exists a c b, cs = a ++ c :: b /\ fst c = 10 /\ Forall (fun c => fst c <> 10) b.
Proof.
  induction cs as [|c cs [IH|(a & c' & b & -> & H1 & H2)]].
  - left; auto.
  - destruct (Z.eq_dec (fst c) 10).
    + right. exists [], c, cs. auto.
    + left. auto.
  - right. exists (c :: a), c', b. auto.
Qed.

Lemma since_app a : forall b n, since_newline (a ++ b) n = since_newline b (since_newline a n).
Proof. induction a; intros; simpl; auto. Qed.

Lemma since_no_newline b : Forall (fun c => fst c <> 10) b -> forall n,
  since_newline (runes b) n = (n + length b)%nat.
Proof.
  induction 1 as [|c b Hc Hb IH]; intros n; simpl; [lia|].
  destruct (fst c =? 10) eqn:E; [apply Z.eqb_eq in E; contradiction|]. rewrite IH. lia.
Qed.

Lemma newlines_app a b : newlines (a ++ b) = (newlines a + newlines b)%nat.
Proof. unfold newlines. rewrite filter_app, app_length. reflexivity. Qed.

Lemma newlines_none b : Forall (fun c => fst c <> 10) b -> newlines (runes b) = 0%nat.
Proof.
  induction 1 as [|c b Hc Hb IH]; auto. unfold newlines in *. cbn [runes map filter].
  destruct (Z.eqb_spec 10 (fst c)) as [E|E]; [congruence|]. exact IH.
Qed.

Lemma count_newlines_app a b : count_newlines (a ++ b) = (count_newlines a + count_newlines b)%nat.
Proof. induction a as [|x a IH]; simpl; auto. destruct (x =? 10); lia. Qed.

Lemma count_newlines_in s : ~ In 10 s -> count_newlines s = 0%nat.
Proof.
  induction s as [|b s IH]; intros H; simpl; auto.
  destruct (b =? 10) eqn:E; [exfalso; apply H; left; lia|]. apply IH. intros X; apply H; right; auto.
Qed.

Lemma count_newlines_chars cs : Forall clean cs -> count_newlines (bytes_of cs) = newlines (runes cs).
Proof.
  induction 1 as [|c cs [H1 H2] Hcs IH]; auto.
  rewrite bytes_cons, count_newlines_app, IH. unfold newlines. cbn [runes map filter].
  destruct (Z.eqb_spec 10 (fst c)) as [E|E].
  - rewrite H2 by congruence. reflexivity.
  - rewrite count_newlines_in; auto. intros X. apply H1 in X. destruct X; congruence.
Qed.

(** The model's line and column, in terms of the characters before. *)
Lemma column_spec i cs before after :
  Forall is_byte i -> chars_of i cs -> cs = before ++ after ->
  ln i (length (bytes_of before)) = S (newlines (runes before)) /\
  lp i (length (bytes_of before)) =
    (chars_on_line (runes before) + (if Nat.eqb (newlines (runes before)) 0 then 0 else 1))%nat.
Proof.
  intros Hi Hc E. pose proof (chars_clean _ _ Hi Hc) as Hcl. rewrite E in Hcl.
  apply Forall_app in Hcl. destruct Hcl as [Hcl _].
  assert (Hf : firstn (length (bytes_of before)) i = bytes_of before).
  { rewrite <- (chars_bytes _ _ Hc), E, bytes_app, firstn_app, Nat.sub_diag, firstn_all.
    simpl. apply app_nil_r. }
  unfold ln, lp, line_number, line_pos; simpl. rewrite Hf. split.
  { f_equal. apply count_newlines_chars; auto. }
  assert (Hpre : chars_of (bytes_of before) before) by (eapply chars_prefix; eauto).
  assert (Hsl : forall k, slice i k (length (bytes_of before)) = skipn k (bytes_of before)).
  { intros k. unfold slice. rewrite <- Hf at 2. rewrite skipn_firstn_comm. reflexivity. }
  rewrite Hsl. unfold last_newline, chars_on_line.
  destruct (split_last_newline before) as [Hn|(a & c & b & Eb & Hc10 & Hn)].
  - rewrite last_newline_from_none by (apply clean_no_newline; auto). simpl.
    rewrite (rune_count_chars _ _ Hpre) by lia.
    rewrite newlines_none, since_no_newline by auto. simpl. lia.
  - rewrite Eb in Hcl. apply Forall_app in Hcl. destruct Hcl as [Ha Hcb].
    inversion Hcb as [|? ? [_ Hc1] Hb]; subst.
    assert (Esnd : snd c = [10]) by auto.
    rewrite bytes_app, bytes_cons, Esnd. simpl.
    rewrite last_newline_from_app. simpl.
    rewrite last_newline_from_none by (apply clean_no_newline; auto).
    rewrite skipn_app, Nat.sub_diag, skipn_all. simpl.
    assert (Hsuf : chars_of (bytes_of (c :: b)) (c :: b)).
    { eapply (chars_suffix _ _ Hpre a). reflexivity. }
    rewrite bytes_cons, Esnd in Hsuf. simpl in Hsuf.
    rewrite (rune_count_chars _ _ Hsuf) by (rewrite app_length; simpl; lia).
    rewrite runes_app', newlines_app, since_app. simpl. rewrite Hc10. simpl.
    rewrite since_no_newline by auto.
    assert (E1 : newlines (10 :: runes b) = 1%nat).
    { unfold newlines. simpl. f_equal. apply (newlines_none b); auto. }
    rewrite E1, Nat.add_1_r. simpl. lia.
Qed.

Lemma located_split i ts : forall p pre t post, located i p ts -> ts = pre ++ t :: post ->
  tk_line t = ln i (p + length (concat (map tk_val pre))) /\
  ((forall e, tk_kind t <> KErr e) -> tk_pos t = lp i (p + length (concat (map tk_val pre)))).
Proof.
  induction ts as [|x ts IH]; intros p pre t post H E; [destruct pre; discriminate|].
  destruct H as (H1 & H2 & H3). destruct pre as [|y pre]; inversion E; subst; simpl.
  - rewrite Nat.add_0_r. auto.
  - rewrite app_length, Nat.add_assoc. eapply IH; eauto.
Qed.

(** The texts of the tokens make up a prefix of the text, cut at characters. *)
Lemma lexes_prefix u cs ts : lexes u cs ts -> forall pre t post, ts = pre ++ t :: post ->
  exists a b, cs = a ++ b /\ bytes_of a = concat (map snd pre).
Proof.
  induction 1 as [|e cs He|k x rest ts Ht Hl IH]; intros pre t post E.
  - destruct pre as [|? [|]]; try discriminate. exists [], []. auto.
  - destruct pre as [|? [|]]; try discriminate. exists [], cs. auto.
  - destruct pre as [|y pre]; inversion E; subst.
    + exists [], (x ++ rest). auto.
    + destruct (IH _ _ _ eq_refl) as (a & b & -> & Eb). exists (x ++ a), b.
      rewrite <- app_assoc, bytes_app, Eb. auto.
Qed.

Lemma lexes_whole u cs ts : lexes u cs ts -> exists pre k,
  ts = pre ++ [(k, [])] /\
  ((k = KEOF /\ bytes_of cs = concat (map snd ts)) \/
   (exists e a b, k = KErr e /\ cs = a ++ b /\ bytes_of a = concat (map snd ts) /\ error_at u e (runes b))).
Proof.
  induction 1 as [|e cs He|k x rest ts Ht Hl IH].
  - exists [], KEOF. simpl. auto.
  - exists [], (KErr e). simpl. split; auto. right. exists e, [], cs. auto.
  - destruct IH as (pre & k' & -> & H). exists ((k, bytes_of x) :: pre), k'. split; auto.
    destruct H as [[-> E]|(e & a & b & -> & -> & E & He)].
    + left. split; auto. simpl. rewrite bytes_app, E. reflexivity.
    + right. exists e, (x ++ a), b. rewrite <- app_assoc, bytes_app, E. auto.
Qed.

Lemma map_snd_kv ts : map snd (map kv ts) = map tk_val ts.
Proof. rewrite map_map. reflexivity. Qed.

(* ------------------------------------------------------- the properties *)

Lemma lossless u input : Forall is_byte input -> exists toks,
  lex u input = Some toks /\
  exists rest, concat (map tk_val toks) ++ rest = input /\
  (rest = [] \/ exists t e, In t toks /\ tk_kind t = KErr e) /\
  ((forall t e, In t toks -> tk_kind t <> KErr e) -> rest = []).
Proof.
  intros Hi. destruct (chars_total input) as [cs Hc].
  destruct (lex_spec u input cs Hi Hc) as (toks & E & Hl & _). exists toks. split; auto.
  destruct (lexes_whole _ _ _ Hl) as (pre & k & Et & H).
  rewrite map_snd_kv in H. pose proof (chars_bytes _ _ Hc) as Eb.
  destruct H as [[-> E1]|(e & a & b & -> & -> & E1 & He)].
  - exists []. rewrite app_nil_r. split; [congruence|]. auto.
  - exists (bytes_of b). rewrite <- E1, <- Eb, bytes_app. split; auto.
    assert (Hin : In (KErr e, []) (map kv toks)) by (rewrite Et; apply in_or_app; simpl; auto).
    apply in_map_iff in Hin. destruct Hin as (t & Ht & Hin). inversion Ht.
    split; [right; eauto|]. intros X. exfalso. eapply X; eauto.
Qed.

Definition terminal (t : token) : Prop := tk_kind t = KEOF \/ exists e, tk_kind t = KErr e.

Lemma one_terminal u input : Forall is_byte input -> exists toks last,
  lex u input = Some (toks ++ [last]) /\ terminal last /\
  Forall (fun t => ~ terminal t /\ tk_val t <> []) toks.
Proof.
  intros Hi. destruct (chars_total input) as [cs Hc].
  destruct (lex_spec u input cs Hi Hc) as (toks & E & Hl & _).
  pose proof (lexes_closed u _ _ (chars_good _ _ Hi Hc) Hl) as Hcl. clear Hl.
  rewrite E. clear E. remember (map kv toks) as s eqn:Es. revert toks Es.
  induction Hcl as [|e|k t ts H1 H2 H3 H4 IH]; intros toks Es;
    destruct toks as [|[k' v p n] toks]; try discriminate; inversion Es; subst.
  - destruct toks; [|discriminate]. exists [], (Token KEOF [] p n). unfold terminal. simpl. auto.
  - destruct toks; [|discriminate]. exists [], (Token (KErr e) [] p n). unfold terminal. simpl. eauto.
  - destruct (IH _ eq_refl) as (l & last & E & Hlast & Hall). inversion E; subst.
    exists (Token k' v p n :: l), last. split; auto. split; auto. constructor; auto.
    split; auto. simpl. intros [X|[e X]]; simpl in X; congruence.
Qed.

Lemma locations u input toks : Forall is_byte input -> lex u input = Some toks ->
  forall pre t post before, toks = pre ++ t :: post ->
  chars_of (concat (map tk_val pre)) before ->
  tk_line t = S (newlines (runes before)) /\
  ((forall e, tk_kind t <> KErr e) ->
   tk_pos t = (chars_on_line (runes before) +
               (if Nat.eqb (newlines (runes before)) 0 then 0 else 1))%nat).
Proof.
  intros Hi E pre t post before Et Hb. destruct (chars_total input) as [cs Hc].
  destruct (lex_spec u input cs Hi Hc) as (toks' & E' & Hl & Hloc).
  rewrite E in E'. inversion E'; subst toks'.
  destruct (located_split _ _ _ _ _ _ Hloc Et) as [H1 H2]. simpl in H1, H2.
  destruct (lexes_prefix _ _ _ Hl (map kv pre) (kv t) (map kv post)) as (a & b & Ea & Eb).
  { rewrite Et, map_app. reflexivity. }
  rewrite map_snd_kv in Eb.
  assert (before = a).
  { eapply chars_functional; [exact Hb|]. rewrite <- Eb. eapply chars_prefix; eauto. }
  subst a. destruct (column_spec _ _ _ _ Hi Hc Ea) as [Hn Hp].
  rewrite <- Eb in H1, H2. split; [congruence|]. intros X. rewrite H2; auto.
Qed.

(* ------------------------------------------------------------- UTF-8 *)

Ltac Zify.zify_post_hook ::= Z.div_mod_to_equations.

Ltac split_ifs := repeat match goal with
  | |- context [Z.ltb ?a ?b] => destruct (Z.ltb_spec a b); try lia
  | |- context [Z.leb ?a ?b] => destruct (Z.leb_spec a b); try lia
  | |- context [Z.eqb ?a ?b] => destruct (Z.eqb_spec a b); try lia
  end.

Lemma decode_encode r rest : scalar r -> decode_rune (utf8 r ++ rest) = (r, length (utf8 r)).
Proof.
  intros Hr. unfold scalar in Hr. unfold utf8.
  destruct (Z.ltb_spec r 128) as [H1|H1].
  { simpl. destruct (Z.ltb_spec r 128); [reflexivity|lia]. }
  destruct (Z.ltb_spec r 2048) as [H2|H2].
  { cbn [app decode_rune]. unfold utf8_first. split_ifs. cbn [length Nat.leb negb].
    split_ifs. cbn [orb]. f_equal. lia. }
  destruct (Z.ltb_spec r 65536) as [H3|H3].
  { cbn [app decode_rune]. unfold utf8_first, cont_byte. split_ifs; cbn [length Nat.leb negb];
    split_ifs; cbn [orb andb negb]; f_equal; lia. }
  cbn [app decode_rune]. unfold utf8_first, cont_byte. split_ifs; cbn [length Nat.leb negb];
    split_ifs; cbn [orb andb negb]; f_equal; lia.
Qed.

Lemma utf8_bytes r : scalar r -> Forall is_byte (utf8 r) /\ utf8 r <> [].
Proof.
  intros Hr. unfold scalar in Hr. unfold utf8, is_byte.
  split_ifs; (split; [repeat constructor; lia|discriminate]).
Qed.

Lemma chars_encode rs : Forall scalar rs ->
  chars_of (concat (map utf8 rs)) (map (fun r => (r, utf8 r)) rs).
Proof.
  induction 1 as [|r rs Hr Hrs IH]; [constructor|]. simpl.
  assert (Hf : utf8 r = firstn (length (utf8 r)) (utf8 r ++ concat (map utf8 rs))).
  { rewrite firstn_app, Nat.sub_diag, firstn_all. simpl. rewrite app_nil_r. reflexivity. }
  rewrite Hf at 2. constructor.
  - destruct (utf8_bytes r Hr) as [_ Hn]. destruct (utf8 r); [congruence|discriminate].
  - apply decode_encode; auto.
  - rewrite skipn_app, Nat.sub_diag, skipn_all. simpl. auto.
Qed.
