(** The constants written for string literals. *)
From Coq Require Import Ascii String ZArith List Bool Lia.
From Verif Require Import LexModel LexSpec LexProofs LexLoc LexLayout StrModel StrSpec X86 GenModel GenStatic GenProgram GenLabels.
Import ListNotations.
Open Scope Z_scope.
Open Scope list_scope.
Ltac Zify.zify_post_hook ::= Z.div_mod_to_equations.

Lemma append_scalar r : scalar r -> append_rune r = utf8 r.
Proof.
  intros H. unfold scalar in H. unfold append_rune, utf8.
  assert (E : (r <? 0) || (1114111 <? r) || ((55296 <=? r) && (r <? 57344)) = false).
  { rewrite !orb_false_iff, andb_false_iff. lia. }
  rewrite E. replace (0 <=? r) with true by lia. reflexivity.
Qed.
Lemma utf8_ascii r : 0 <= r < 128 -> utf8 r = [r].
Proof. intros H. unfold utf8. replace (r <? 128) with true by lia. reflexivity. Qed.
Lemma utf8_head r : scalar r -> 128 <= r -> exists b t, utf8 r = b :: t /\ 128 <= b /\ Forall (fun x => 128 <= x) t.
Proof.
  intros Hs H. unfold scalar in Hs. unfold utf8.
  destruct (r <? 128) eqn:E1; [lia|]. destruct (r <? 2048) eqn:E2; [|destruct (r <? 65536) eqn:E3];
  eexists _, _; (split; [reflexivity|]); (split; [lia|]); repeat constructor; lia.
Qed.

(** What the lexer lets through stands for something. *)
Lemma body_denotes b : string_body b -> exists bs, denotes b bs.
Proof.
  induction 1 as [|r b H1 H2 _ [bs IH]|r b Hr _ [bs IH]].
  - exists []. constructor.
  - exists (utf8 r ++ bs). now constructor.
  - cbn in Hr. destruct Hr as [<-|[<-|[<-|[<-|[]]]]]; eexists; econstructor; exact IH.
Qed.
Lemma denotes_body b bs : denotes b bs -> string_body b.
Proof. induction 1; [constructor|now constructor| | | |]; apply body_escape; auto; cbn; auto. Qed.
Lemma denotes_unique b bs : denotes b bs -> forall bs', denotes b bs' -> bs' = bs.
Proof.
  induction 1; intros bs' D; inversion D; subst; try (exfalso; congruence); try reflexivity; f_equal; auto.
Qed.

Lemma encoded_app a b : encoded (a ++ b) = encoded a ++ encoded b.
Proof. unfold encoded. now rewrite map_app, concat_app. Qed.

(** strconv.Unquote counts the bytes meant. *)
Lemma unquote_denotes b bs : denotes b bs -> Forall scalar b -> ~ In 10 b ->
  forall n, (length (encoded b) < n)%nat -> unquote_chars n (encoded b ++ [34]) = Some bs.
Proof.
  induction 1 as [|r rs bs H1 H2 D IH|rs bs D IH|rs bs D IH|rs bs D IH|rs bs D IH]; intros Hs Hn n Hl.
  - destruct n; [cbn in Hl; lia|]. reflexivity.
  - inversion Hs as [|? ? S1 S2]; subst. cbn in H1, H2.
    assert (N1 : r <> 10) by (intros ->; apply Hn; now left).
    assert (N2 : ~ In 10 rs) by (intros X; apply Hn; now right).
    change (encoded (r :: rs)) with (utf8 r ++ encoded rs) in *. rewrite app_length in Hl.
    destruct n as [|n]; [lia|].
    destruct (Z_lt_ge_dec r 128) as [Hr|Hr].
    + assert (0 <= r) by (unfold scalar in S1; lia). rewrite utf8_ascii in * by lia. cbn in Hl. cbn [unquote_chars app].
      replace (r =? 34) with false by lia. replace (r =? 10) with false by lia. replace (128 <=? r) with false by lia.
      replace (r =? 92) with false by lia. cbn [negb]. rewrite IH by (auto; lia). reflexivity.
    + destruct (utf8_head r S1 ltac:(lia)) as (b & t & E & Hb & _).
      pose proof (decode_encode r (encoded rs ++ [34]) S1) as Ed. rewrite <- app_assoc.
      assert (Es : skipn (length (utf8 r)) (utf8 r ++ encoded rs ++ [34]) = encoded rs ++ [34]).
      { rewrite skipn_app, Nat.sub_diag, skipn_all. reflexivity. }
      assert (EL : (1 <= length (utf8 r))%nat) by (rewrite E; cbn; lia).
      remember (length (utf8 r)) as w. rewrite E in Ed, Es |- *.
      cbn [app unquote_chars]. cbn [app] in Ed, Es. rewrite Ed, Es.
      replace (b =? 34) with false by lia. replace (b =? 10) with false by lia. replace (128 <=? b) with true by lia.
      rewrite IH by (auto; lia). rewrite append_scalar, E by exact S1. reflexivity.
  - inversion Hs as [|? ? _ S1]; subst. inversion S1 as [|? ? _ S2]; subst. change (encoded (ch "\" :: ch "n" :: rs)) with (92 :: 110 :: encoded rs) in *.
    destruct n as [|n]; [cbn in Hl; lia|]. cbn. rewrite IH; [reflexivity|exact S2|cbn in Hn; intuition|cbn in Hl; lia].
  - inversion Hs as [|? ? _ S1]; subst. inversion S1 as [|? ? _ S2]; subst. change (encoded (ch "\" :: ch "r" :: rs)) with (92 :: 114 :: encoded rs) in *.
    destruct n as [|n]; [cbn in Hl; lia|]. cbn. rewrite IH; [reflexivity|exact S2|cbn in Hn; intuition|cbn in Hl; lia].
  - inversion Hs as [|? ? _ S1]; subst. inversion S1 as [|? ? _ S2]; subst. change (encoded (ch "\" :: ch """" :: rs)) with (92 :: 34 :: encoded rs) in *.
    destruct n as [|n]; [cbn in Hl; lia|]. cbn. rewrite IH; [reflexivity|exact S2|cbn in Hn; intuition|cbn in Hl; lia].
  - inversion Hs as [|? ? _ S1]; subst. inversion S1 as [|? ? _ S2]; subst. change (encoded (ch "\" :: ch "\" :: rs)) with (92 :: 92 :: encoded rs) in *.
    destruct n as [|n]; [cbn in Hl; lia|]. cbn. rewrite IH; [reflexivity|exact S2|cbn in Hn; intuition|cbn in Hl; lia].
Qed.
(** And fails on a line end. *)
Lemma unquote_newline b : string_body b -> Forall scalar b -> In 10 b ->
  forall n, unquote_chars n (encoded b ++ [34]) = None.
Proof.
  induction 1 as [|r rs H1 H2 D IH|r rs Hr D IH]; intros Hs Hn n.
  - elim Hn.
  - inversion Hs as [|? ? S1 S2]; subst. cbn in H1, H2. destruct n as [|n]; [reflexivity|].
    change (encoded (r :: rs)) with (utf8 r ++ encoded rs).
    destruct (Z_lt_ge_dec r 128) as [Hr|Hr].
    + assert (0 <= r) by (unfold scalar in S1; lia). rewrite utf8_ascii by lia. cbn [unquote_chars app].
      replace (r =? 34) with false by lia. destruct (Z.eqb_spec r 10); [reflexivity|]. replace (128 <=? r) with false by lia.
      replace (r =? 92) with false by lia. cbn [negb]. rewrite IH; [reflexivity|exact S2|]. destruct Hn as [->|Hn]; [congruence|exact Hn].
    + destruct (utf8_head r S1 ltac:(lia)) as (b & t & E & Hb & _).
      pose proof (decode_encode r (encoded rs ++ [34]) S1) as Ed. rewrite <- app_assoc.
      assert (Es : skipn (length (utf8 r)) (utf8 r ++ encoded rs ++ [34]) = encoded rs ++ [34]).
      { rewrite skipn_app, Nat.sub_diag, skipn_all. reflexivity. }
      remember (length (utf8 r)) as w. rewrite E in Ed, Es |- *.
      cbn [app unquote_chars]. cbn [app] in Ed, Es. rewrite Ed, Es.
      replace (b =? 34) with false by lia. replace (b =? 10) with false by lia. replace (128 <=? b) with true by lia.
      rewrite IH; [reflexivity|exact S2|]. destruct Hn as [->|Hn]; [lia|exact Hn].
  - inversion Hs as [|? ? _ S1]; subst. inversion S1 as [|? ? _ S2]; subst. destruct n as [|n]; [reflexivity|].
    assert (Hn' : In 10 rs).
    { cbn in Hn, Hr. destruct Hn as [X|[X|X]]; [discriminate| |exact X]. subst r. intuition discriminate. }
    cbn in Hr. destruct Hr as [<-|[<-|[<-|[<-|[]]]]]; cbn; rewrite IH by auto; reflexivity.
Qed.

(** The assembler writes the bytes meant. *)
Lemma assemble_high t rest : Forall (fun x => 128 <= x) t -> assemble (t ++ rest) = option_map (app t) (assemble rest).
Proof.
  induction 1 as [|x t Hx _ IH]; cbn [app assemble].
  - destruct (assemble rest); reflexivity.
  - replace (x =? 34) with false by lia. replace (x =? 10) with false by lia. replace (x =? 92) with false by lia.
    cbn [orb negb]. rewrite IH. destruct (assemble rest); reflexivity.
Qed.
Lemma assemble_denotes b bs : denotes b bs -> Forall scalar b -> ~ In 10 b ->
  assemble (encoded b ++ [92; 48]) = Some (bs ++ [0]).
Proof.
  induction 1 as [|r rs bs H1 H2 D IH|rs bs D IH|rs bs D IH|rs bs D IH|rs bs D IH]; intros Hs Hn.
  - reflexivity.
  - inversion Hs as [|? ? S1 S2]; subst. cbn in H1, H2.
    assert (N1 : r <> 10) by (intros ->; apply Hn; now left).
    assert (N2 : ~ In 10 rs) by (intros X; apply Hn; now right).
    change (encoded (r :: rs)) with (utf8 r ++ encoded rs). rewrite <- app_assoc.
    destruct (Z_lt_ge_dec r 128) as [Hr|Hr].
    + assert (0 <= r) by (unfold scalar in S1; lia). rewrite utf8_ascii by lia. cbn [app assemble].
      replace (r =? 34) with false by lia. replace (r =? 10) with false by lia.
      replace (r =? 92) with false by lia. cbn [negb orb]. rewrite IH by auto. reflexivity.
    + destruct (utf8_head r S1 ltac:(lia)) as (b & t & E & Hb & Ht). rewrite E. rewrite assemble_high by (constructor; auto).
      rewrite IH by auto. cbn. now rewrite app_assoc.
  - inversion Hs as [|? ? _ S1]; subst. inversion S1 as [|? ? _ S2]; subst. change (encoded (ch "\" :: ch "n" :: rs)) with (92 :: 110 :: encoded rs). cbn [app]. cbn -[encoded app]. rewrite IH; [reflexivity|exact S2|cbn in Hn; intuition].
  - inversion Hs as [|? ? _ S1]; subst. inversion S1 as [|? ? _ S2]; subst. change (encoded (ch "\" :: ch "r" :: rs)) with (92 :: 114 :: encoded rs). cbn [app]. cbn -[encoded app]. rewrite IH; [reflexivity|exact S2|cbn in Hn; intuition].
  - inversion Hs as [|? ? _ S1]; subst. inversion S1 as [|? ? _ S2]; subst. change (encoded (ch "\" :: ch """" :: rs)) with (92 :: 34 :: encoded rs). cbn [app]. cbn -[encoded app]. rewrite IH; [reflexivity|exact S2|cbn in Hn; intuition].
  - inversion Hs as [|? ? _ S1]; subst. inversion S1 as [|? ? _ S2]; subst. change (encoded (ch "\" :: ch "\" :: rs)) with (92 :: 92 :: encoded rs). cbn [app]. cbn -[encoded app]. rewrite IH; [reflexivity|exact S2|cbn in Hn; intuition].
Qed.

Lemma literal_text b : literal b = 34 :: encoded b ++ [34].
Proof. unfold literal. change (encoded (ch """" :: b ++ [ch """"])) with (34 :: encoded (b ++ [ch """"])). now rewrite encoded_app. Qed.
Lemma unquote_literal b bs : denotes b bs -> Forall scalar b -> unquote (literal b) = if in_dec Z.eq_dec 10 b then None else Some bs.
Proof.
  intros D Hs. rewrite literal_text. cbn [unquote]. destruct (in_dec Z.eq_dec 10 b) as [H|H].
  - apply unquote_newline; auto. eapply denotes_body; eauto.
  - apply (unquote_denotes b bs D Hs H). rewrite app_length. cbn. lia.
Qed.

(** Where the literals of a program stand. *)
Lemma lits_place unq l : forall n s c s', gen_lits unq n l s = Some (c, s') ->
  forall k txt, nth_error l k = Some txt -> exists raw before after, unq txt = Some raw /\
    c = before ++ ELabel (LLit (n + k)) :: [tagged_word (read_only_header 4); tagged_word (Z.of_nat (List.length raw));
      EAscii (removelast (tl txt) ++ [92; 48])] ++ after.
Proof.
  induction l as [|x l IH]; intros n s c s' H k txt Hk; [destruct k; discriminate|].
  cbn [gen_lits] in H. destruct (unq x) as [raw|] eqn:E; [|discriminate].
  repeat match type of H with
  | seq (emit _) _ _ = Some _ =>
      let c1 := fresh "c" in let s1 := fresh "s" in let c2 := fresh "c" in let H1 := fresh "H" in let H2 := fresh "H" in
      apply seq_inv in H as (c1 & s1 & c2 & H1 & H2 & ->); apply emit_inv in H1 as [-> ->]; rename H2 into H
  end.
  destruct k as [|k].
  - injection Hk as ->. rewrite Nat.add_0_r. eexists raw, [EData], _. split; [exact E|reflexivity].
  - cbn in Hk. destruct (IH _ _ _ _ H _ _ Hk) as (raw' & b & a & E' & ->). exists raw'.
    eexists ([EData; ELabel (LLit n); tagged_word (read_only_header 4); tagged_word (Z.of_nat (List.length raw)); EAscii (removelast (tl x) ++ [92; 48])] ++ b), a.
    split; [exact E'|]. rewrite <- plus_n_Sm. cbn. reflexivity.
Qed.
Lemma lits_total unq l : (forall txt, In txt l -> unq txt <> None) -> forall n s, exists c, gen_lits unq n l s = Some (c, s).
Proof.
  induction l as [|x l IH]; intros H n s; cbn [gen_lits]; [eexists; reflexivity|].
  destruct (unq x) as [raw|] eqn:E; [|elim (H x (or_introl eq_refl) E)].
  destruct (IH (fun t Ht => H t (or_intror Ht)) (S n) s) as [c Hc].
  eexists. unfold seq, emit. rewrite Hc. reflexivity.
Qed.
Lemma lits_panic unq l txt : In txt l -> unq txt = None -> forall n s, gen_lits unq n l s = None.
Proof.
  intros Hi Hu. induction l as [|x l IH]; intros n s; [elim Hi|]. cbn [gen_lits].
  destruct Hi as [->|Hi]; [now rewrite Hu|]. destruct (unq x); [|reflexivity].
  unfold seq, emit. rewrite IH by exact Hi. reflexivity.
Qed.

Lemma lcount_appl l a b : lcount l (a ++ b) = (lcount l a + lcount l b)%nat.
Proof. induction a as [|e a IH]; cbn; [reflexivity|]. destruct e; rewrite ?IH; lia. Qed.
Lemma label_eqb_same l : label_eqb l l = true.
Proof. destruct l; cbn; rewrite ?Nat.eqb_refl, ?String.eqb_refl; auto. destruct p; reflexivity. Qed.

Lemma program_place unq alloc ioob entry ts prog P sf : gen_program unq alloc ioob entry ts prog start = Some (P, sf) ->
  forall n txt, nth_error (g_lits sf) n = Some txt -> NoDup (map_labels ts) -> exists raw, unq txt = Some raw /\
    stands_at P (LLit n) [tagged_word (read_only_header 4); tagged_word (Z.of_nat (List.length raw)); EAscii (removelast (tl txt) ++ [92; 48])].
Proof.
  intros H n txt Hn Hm. pose proof (program_unique _ _ _ _ _ _ _ _ Hm H (LLit n)) as U.
  unfold gen_program in H. apply seq_inv in H as (c1 & s1 & c2 & H1 & H & ->).
  apply seq_inv in H as (c3 & s3 & c4 & H3 & H & ->). pose proof (chunk_flush _ _ _ _ H) as [-> _].
  unfold gen_flush in H. apply seq_inv in H as (c5 & s5 & c6 & H5 & H & ->). apply emit_inv in H5 as [-> ->].
  destruct (lits_place _ _ _ _ _ _ H _ _ Hn) as (raw & b & a & E & ->). exists raw. split; [exact E|].
  exists (c1 ++ c3 ++ [EData] ++ b), a. split; [now rewrite <- !app_assoc|].
  rewrite !lcount_appl in *. change (0 + n)%nat with n in U. cbn [lcount] in *. rewrite label_eqb_same in U. cbn [app lcount tagged_word] in *. split; lia.
Qed.

(** Only quoted texts are strings. *)
Lemma assoc_in {A} r (l : list (rune * A)) k : assoc r l = Some k -> In k (map snd l).
Proof. induction l as [|[x y] l IH]; cbn; [discriminate|]. destruct (r =? x); [intros [= ->]; auto|auto]. Qed.
Lemma one_char_kind r k : assoc r one_char_tokens = Some k -> k <> KString.
Proof. intros H%assoc_in. intros ->. cbn in H. intuition discriminate. Qed.
Lemma two_char_kind r1 r2 k : two_char r1 r2 = Some k -> k <> KString.
Proof.
  unfold two_char. intros H ->. destruct (assoc r1 two_char_tokens) as [t|] eqn:E; [|discriminate].
  apply assoc_in in E. apply assoc_in in H. cbn in E.
  repeat (destruct E as [<-|E]; [cbn in H; intuition discriminate|]). elim E.
Qed.
Lemma word_kind_kind w k : word_kind w k -> k <> KString.
Proof.
  intros [(s & H & _)|[E _]] X; [|congruence]. subst k. unfold keywords in H. cbn [In] in H.
  repeat (destruct H as [H|H]; [discriminate|]). elim H.
Qed.

(** What the lexer gives as a string. *)
Lemma lexes_string u cs ts : lexes u cs ts -> forall v, In (KString, v) ts -> exists pre t post b,
  cs = pre ++ t ++ post /\ v = bytes_of t /\ runes t = ch """" :: b ++ [ch """"] /\ string_body b.
Proof.
  induction 1 as [|e cs He|k t rest ts Ht Hl IH]; intros v Hv.
  - destruct Hv as [X|[]]; discriminate.
  - destruct Hv as [X|[]]; discriminate.
  - destruct Hv as [X|Hv].
    + injection X as -> <-. exists [], t, rest. inversion Ht as [r1 r2 k rr Hk| r k rr Hk| | | |b rr Hb| | | |k r w rr H1 H2 Hw]; subst.
      * exfalso. apply two_char_kind in Hk. congruence.
      * exfalso. apply one_char_kind in Hk. congruence.
      * exists b. auto.
      * exfalso. apply word_kind_kind in Hw. congruence.
    + destruct (IH v Hv) as (pre & t' & post & b & -> & R). exists (t ++ pre), t', post, b. rewrite app_assoc. auto.
Qed.

Lemma map_split {A B} (f : A -> B) l : forall a b, map f l = a ++ b -> exists la lb, l = la ++ lb /\ map f la = a /\ map f lb = b.
Proof.
  induction l as [|x l IH]; intros a b H; cbn in H.
  - symmetry in H. apply app_eq_nil in H as [-> ->]. exists [], []. auto.
  - destruct a as [|y a]; cbn in H.
    + exists [], (x :: l). auto.
    + injection H as <- H. destruct (IH _ _ H) as (la & lb & -> & <- & <-). exists (x :: la), lb. auto.
Qed.
Lemma source_literal u rs toks tok : Forall scalar rs -> lex u (encoded rs) = Some toks -> In tok toks -> tk_kind tok = KString ->
  exists b, tk_val tok = literal b /\ string_body b /\ Forall scalar b.
Proof.
  intros Hs Hl Hi Hk. pose proof (chars_encode rs Hs) as Hc. fold (encoded rs) in Hc.
  assert (Hb : Forall is_byte (encoded rs)).
  { clear -Hs. induction Hs as [|r rs Hr _ IH]; [constructor|]. apply Forall_app. split; [now apply utf8_bytes|exact IH]. }
  destruct (lex_spec u _ _ Hb Hc) as (ts & E & L & _). rewrite Hl in E. injection E as ->.
  destruct (lexes_string u _ _ L (tk_val tok)) as (pre & t & post & b & E & Ev & Er & Hbody).
  { apply in_map_iff. exists tok. split; [|exact Hi]. rewrite <- Hk. reflexivity. }
  destruct (map_split _ _ _ _ E) as (r1 & r2 & -> & _ & E2). destruct (map_split _ _ _ _ E2) as (r3 & r4 & -> & E3 & _). subst t.
  assert (R : runes (map (fun r => (r, utf8 r)) r3) = r3).
  { unfold runes. rewrite map_map. apply map_id. }
  rewrite R in Er. subst r3. exists b. split; [|split; [exact Hbody|]].
  - rewrite Ev. unfold literal, encoded, bytes_of. now rewrite map_map.
  - apply Forall_app in Hs as [_ Hs]. apply Forall_app in Hs as [Hs _]. inversion Hs as [|? ? _ Hx]; subst.
    apply Forall_app in Hx as [Hx _]. exact Hx.
Qed.

Lemma tail_text b : removelast (tl (literal b)) = encoded b.
Proof. rewrite literal_text. cbn [tl]. now rewrite removelast_last. Qed.

Lemma literal_stored alloc ioob entry ts prog P sf : gen_program unquote alloc ioob entry ts prog start = Some (P, sf) ->
  NoDup (map_labels ts) -> forall n b bs, nth_error (g_lits sf) n = Some (literal b) -> Forall scalar b -> denotes b bs ->
  exists written, stands_at P (LLit n) [EWord (2 * read_only_header 4 + 1); EWord (2 * Z.of_nat (List.length bs) + 1); EAscii written] /\
    assemble written = Some (bs ++ [0]).
Proof.
  intros H Hm n b bs Hn Hs D. destruct (program_place _ _ _ _ _ _ _ _ H n _ Hn Hm) as (raw & E & S).
  rewrite (unquote_literal b bs D Hs) in E. destruct (in_dec Z.eq_dec 10 b) as [X|X]; [discriminate|]. injection E as <-.
  eexists. split; [exact S|]. rewrite tail_text. now apply assemble_denotes.
Qed.
