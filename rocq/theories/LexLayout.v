(** Layout between tokens does not matter. *)
From Coq Require Import Ascii String ZArith List Bool Lia.
From Verif Require Import LexModel LexSpec LexProofs LexRun LexDet.
Import ListNotations.
Open Scope Z_scope.

Section Layout.
Variable u : unicode.

Lemma runes_app' a b : runes (a ++ b) = runes a ++ runes b.
Proof. apply map_app. Qed.

(** Only the first character after a token matters. *)
Lemma not_next_head (P : rune -> Prop) r a b : not_next P (r :: a) -> not_next P (r :: b).
Proof. auto. Qed.

Lemma token_same_next k t r a b : token_at u k t (r :: a) -> token_at u k t (r :: b).
Proof.
  intros H. inversion H; subst.
  - apply tok_two; auto.
  - apply tok_one; auto.
  - apply tok_space; auto.
  - apply tok_eol; auto.
  - apply tok_comment; auto.
  - apply tok_string; auto.
  - apply tok_decimal; auto.
  - apply tok_zero; auto. destruct ds; auto.
  - apply tok_hex; auto.
  - apply tok_word; auto.
Qed.

Lemma blank_cases r : blank r -> r = 32 \/ r = 13 \/ r = 10.
Proof. unfold blank, newline. cbn. tauto. Qed.

Lemma blank_next k t r r' a b : is_layout k = false -> blank r -> blank r' ->
  token_at u k t (r :: a) -> token_at u k t (r' :: b).
Proof.
  intros Hk Hr Hr' H. apply blank_cases in Hr, Hr'. inversion H; subst; try discriminate.
  - apply tok_two; auto.
  - apply tok_one; auto. simpl.
    intros [X|[X0 X]]; [|cbn in *; lia].
    destruct (two_char r0 r') eqn:E; [|congruence].
    apply two_char_cases in E.
    repeat (destruct E as [E|E]; [inversion E; lia|]). inversion E; lia.
  - apply tok_string; auto.
  - apply tok_decimal; auto. simpl. intros X. destruct Hr' as [Hr'|[Hr'|Hr']]; subst r'; discriminate X.
  - apply tok_zero; auto; simpl.
    + intros X. destruct Hr' as [Hr'|[Hr'|Hr']]; subst r'; discriminate X.
    + destruct ds; simpl in *; auto. intros X. subst r'. cbn in Hr'. lia.
  - apply tok_hex; auto. simpl. intros X. unfold hex_digit, digit in X. cbn in X.
    destruct Hr' as [Hr'|[Hr'|Hr']]; subst r'; destruct X as [X|X]; try discriminate X; lia.
  - apply tok_word; auto; simpl.
    + intros [[X|X]|X]; destruct Hr' as [Hr'|[Hr'|Hr']]; subst r'; try discriminate X; cbn in X; lia.
    + unfold may_follow_word, newline. cbn. destruct Hr' as [Hr'|[Hr'|Hr']]; subst r'; auto 20.
Qed.

(** The significant part of a token stream. *)
Definition significant (ts : list (kind * list byte)) : list (kind * list byte) :=
  filter (fun '(k, _) => negb (is_layout k)) ts.

(** Layout in front of a text that does not itself start with a blank or comment
    only adds layout tokens. *)
Definition no_blank (rs : list rune) : Prop := not_next (eq (ch " ")) rs.

Lemma runes_cons_inv cs r rs : runes cs = r :: rs -> exists c cs', cs = c :: cs' /\ fst c = r /\ runes cs' = rs.
Proof. destruct cs as [|c cs]; simpl; intros E; [discriminate|]. inversion E; subst. eauto. Qed.

Lemma runes_app_inv cs a : forall b, runes cs = a ++ b -> exists ca cb, cs = ca ++ cb /\ runes ca = a /\ runes cb = b.
Proof.
  revert cs. induction a as [|x a IH]; intros cs b E; simpl in E.
  - exists [], cs. auto.
  - apply runes_cons_inv in E. destruct E as (c & cs' & -> & Hc & E).
    destruct (IH _ _ E) as (ca & cb & -> & E1 & E2). exists (c :: ca), cb. simpl. subst. auto.
Qed.

Lemma spaces_split g : exists n g', g = repeat (ch " ") n ++ g' /\ no_blank g'.
Proof.
  induction g as [|r g (n & g' & E & H)].
  - exists 0%nat, []. simpl. auto.
  - destruct (Z.eq_dec r (ch " ")) as [->|N].
    + exists (S n), g'. simpl. subst. auto.
    + exists 0%nat, (r :: g). split; auto. simpl. auto.
Qed.

Lemma layout_no_spaces n : forall g, layout (repeat (ch " ") n ++ g) -> layout g.
Proof.
  induction n as [|n IH]; intros g H; auto.
  inversion H; subst. apply IH; auto.
Qed.

Lemma single_eol c rest ts : newline (fst c) -> lexes u rest ts ->
  lexes u (c :: rest) ((KEOL, bytes_of [c]) :: ts).
Proof.
  intros Hc Hl. change (c :: rest) with ([c] ++ rest). constructor; auto. apply tok_eol; auto.
Qed.

Lemma layout_lexes : forall n g rest ts, (length g <= n)%nat -> layout (runes g) ->
  no_blank (runes rest) -> lexes u rest ts ->
  exists lts, lexes u (g ++ rest) (lts ++ ts) /\ significant lts = [] /\
    Forall (fun kt => is_layout (fst kt) = true) lts.
Proof.
  induction n as [|n IH]; intros g rest ts Hn Hg Hr Hl.
  { destruct g; [|simpl in Hn; lia]. exists []. auto. }
  destruct (spaces_split (runes g)) as (m & g' & E & Hg').
  destruct (runes_app_inv _ _ _ E) as (ca & cb & -> & E1 & E2).
  destruct m as [|m].
  - (* no leading space *)
    destruct ca; [|discriminate E1]. simpl in *. clear E1. subst g'.
    inversion Hg as [Eg|r l Hb Hlay Eg|b r l Hb Hnl Hlay Eg].
    + symmetry in Eg. destruct cb; [|discriminate]. exists []. auto.
    + symmetry in Eg. apply runes_cons_inv in Eg. destruct Eg as (c & cs' & -> & Hc & El).
      destruct Hb as [Hb|Hnl].
      { exfalso. simpl in Hg'. apply Hg'. congruence. }
      destruct (IH cs' rest ts) as (lts & Hlts & Hsig & Hall); auto.
      { simpl in Hn. lia. }
      { rewrite El. auto. }
      exists ((KEOL, bytes_of [c]) :: lts). split; [|split; auto].
      simpl. apply single_eol; auto. rewrite Hc. auto.
    + symmetry in Eg. apply (runes_app_inv cb (text "//" ++ b) (r :: l)) in Eg.
      destruct Eg as (cc & cd & -> & Ec & Ed).
      apply runes_cons_inv in Ed. destruct Ed as (c & cs' & -> & Hc & El).
      destruct (IH cs' rest ts) as (lts & Hlts & Hsig & Hall); auto.
      { rewrite app_length in Hn. simpl in Hn. lia. }
      { rewrite El. auto. }
      exists ((KComment, bytes_of cc) :: (KEOL, bytes_of [c]) :: lts). split; [|split; auto].
      rewrite <- app_assoc. simpl. apply lexes_token.
      * rewrite Ec. apply tok_comment; auto. simpl. rewrite Hc. auto.
      * apply single_eol; auto. rewrite Hc. auto.
  - destruct (IH cb rest ts) as (lts & Hlts & Hsig & Hall); auto.
    { rewrite app_length in Hn. destruct ca; [discriminate|]. simpl in Hn. lia. }
    { rewrite E2. apply (layout_no_spaces (S m)). rewrite <- E. auto. }
    exists ((KSpace, bytes_of ca) :: lts). split; [|split; auto].
    rewrite <- app_assoc. simpl. apply lexes_token; auto.
    rewrite E1. apply tok_space. rewrite runes_app', E2.
    destruct g'; auto. 
Qed.

Lemma token_head k t rest : is_layout k = false -> token_at u k t rest ->
  exists r t', t = r :: t' /\ r <> ch " ".
Proof.
  intros Hk H. destruct (token_class _ _ _ _ H) as (r & t' & -> & Hc).
  exists r, t'. split; auto. intros ->. cbn in Hc. destruct Hc as (_ & -> & _). discriminate.
Qed.

Lemma doc_no_blank d : doc_ok u d -> no_blank (runes (doc_text d)).
Proof.
  destruct 1 as [|k t g d Hk Ht Hg Hd]; simpl; auto.
  destruct (token_head _ _ _ Hk Ht) as (r & t' & E & Hr).
  unfold doc_text. simpl. rewrite <- app_assoc, runes_app', E. simpl. auto.
Qed.

Lemma gap_layout g : gap g -> layout g.
Proof. intros [->|[H _]]; auto using layout. Qed.

Lemma doc_lexes d : doc_ok u d -> exists ts, lexes u (doc_text d) ts /\
  significant ts = doc_tokens d ++ [(KEOF, [])].
Proof.
  induction 1 as [|k t g d Hk Ht Hg Hd (ts & Hts & Hsig)].
  - exists [(KEOF, [])]. split; [constructor|reflexivity].
  - destruct (layout_lexes (length g) g (doc_text d) ts) as (lts & Hlts & Hs & _); auto using gap_layout, doc_no_blank.
    exists ((k, bytes_of t) :: lts ++ ts). split.
    + unfold doc_text. simpl. rewrite <- app_assoc. apply lexes_token; auto.
    + simpl. rewrite Hk. simpl. f_equal. unfold significant in *. rewrite filter_app, Hs. auto.
Qed.

Lemma same_text_head d d' : doc_ok u d -> same_up_to_layout d d' ->
  (runes (doc_text d) = [] /\ runes (doc_text d') = []) \/
  exists r a b, runes (doc_text d) = r :: a /\ runes (doc_text d') = r :: b.
Proof.
  intros Hd Hs. inversion Hs as [|k t g g' e e' Hg' Hgg He]; subst; auto.
  right. inversion Hd as [|? ? ? ? Hk Ht Hg Hde]; subst.
  destruct (token_head _ _ _ Hk Ht) as (r & t' & E & Hr).
  unfold doc_text. simpl. rewrite <- !app_assoc, !runes_app', E. simpl. eauto.
Qed.

Lemma same_ok d : doc_ok u d -> forall d', same_up_to_layout d d' -> doc_ok u d'.
Proof.
  induction 1 as [|k t g d Hk Ht Hg Hd IH]; intros d' Hs; inversion Hs as [|? ? ? g' ? e' Hg' Hgg He]; subst.
  { constructor. }
  constructor; auto.
  rewrite runes_app' in *.
  destruct g as [|c g].
  - assert (g' = []) as -> by tauto. simpl in *.
    destruct (same_text_head _ _ Hd He) as [[E1 E2]|(r & a & b & E1 & E2)]; rewrite E1 in Ht; rewrite E2; auto.
    eapply token_same_next; eauto.
  - destruct g' as [|c' g']; [destruct Hgg as [_ X]; discriminate (X eq_refl)|].
    destruct Hg as [Hg|(_ & r & g1 & E & Hb)]; [discriminate|].
    destruct Hg' as [Hg'|(_ & r' & g1' & E' & Hb')]; [discriminate|].
    rewrite E in Ht. rewrite E'. simpl in *. exact (blank_next _ _ _ _ _ _ Hk Hb Hb' Ht).
Qed.

Lemma same_tokens d d' : same_up_to_layout d d' -> doc_tokens d = doc_tokens d'.
Proof. unfold doc_tokens. induction 1; simpl; congruence. Qed.
End Layout.

Section Filter.
Variable u : unicode.

(** Streams end with their only EOF or error token. *)
Inductive closed_stream : list (kind * list byte) -> Prop :=
| cs_eof : closed_stream [(KEOF, [])]
| cs_err : forall e, closed_stream [(KErr e, [])]
| cs_tok : forall k t ts, k <> KEOF -> (forall e, k <> KErr e) -> t <> [] -> closed_stream ts ->
    closed_stream ((k, t) :: ts).

Lemma two_char_kind r1 r2 k : two_char r1 r2 = Some k -> k <> KEOF /\ (forall e, k <> KErr e).
Proof.
  intros H. apply two_char_cases in H.
  repeat (destruct H as [E|H]; [inversion E; split; discriminate|]); inversion H; split; discriminate.
Qed.

Lemma one_char_kind r k : assoc r one_char_tokens = Some k -> k <> KEOF /\ (forall e, k <> KErr e).
Proof.
  unfold one_char_tokens. cbn [assoc].
  repeat match goal with |- context [if ?c then _ else _] => destruct c end;
  intros E; inversion E; subst; split; discriminate.
Qed.

Lemma word_kind_not w k : word_kind w k -> k <> KEOF /\ (forall e, k <> KErr e).
Proof.
  intros [(s & Hin & _)|[-> _]]; [|split; discriminate].
  unfold keywords in Hin. simpl in Hin.
  repeat (destruct Hin as [E|Hin]; [inversion E; split; discriminate|]). contradiction.
Qed.

Lemma token_kind k t rest : token_at u k t rest -> k <> KEOF /\ (forall e, k <> KErr e).
Proof.
  destruct 1; try (split; discriminate); eauto using two_char_kind, one_char_kind, word_kind_not.
Qed.

Lemma lexes_closed cs ts : Forall good_char cs -> lexes u cs ts -> closed_stream ts.
Proof.
  intros Hg H. revert Hg. induction H as [|e cs He|k t rest ts Ht Hl IH]; intros Hg.
  - constructor.
  - constructor.
  - apply Forall_app in Hg. destruct Hg as [Hg1 Hg2].
    destruct (token_kind _ _ _ Ht) as [H1 H2]. constructor; auto.
    destruct t as [|c t]; [exfalso; eapply token_not_nil; apply Ht|].
    inversion Hg1 as [|? ? (_ & Hne & _) _]; subst. unfold bytes_of. simpl.
    destruct (snd c); [congruence|discriminate].
Qed.

Definition token_of_stream_err (ts : list (kind * list byte)) : bool :=
  existsb (fun '(k, _) => match k with KErr _ => true | _ => false end) ts.

Lemma filter_spec : forall ts acc, closed_stream (map kv ts) ->
  token_of_stream_err (map kv ts) = false ->
  exists out, filter_tokens ts acc = Some (inr (rev acc ++ out)) /\ map kv out = significant (map kv ts).
Proof.
  induction ts as [|[k v p n] ts IH]; intros acc Hc Hn; [inversion Hc|].
  unfold kv in Hc, Hn. simpl in Hc, Hn. fold kv in Hc, Hn.
  remember ((k, v) :: map kv ts) as s eqn:Es.
  destruct Hc as [|e|k0 v0 r H1 H2 H3 H4]; inversion Es; subst.
  - exists [Token KEOF [] p n]. destruct ts; [|discriminate]. split; reflexivity.
  - discriminate.
  - apply orb_false_iff in Hn. destruct Hn as [Hn1 Hn2].
    destruct (is_layout k) eqn:El.
    + destruct (IH acc H4 Hn2) as (out & E1 & E2). exists out. simpl. rewrite El. simpl. auto.
    + destruct (IH (Token k v p n :: acc) H4 Hn2) as (out & E1 & E2). exists (Token k v p n :: out).
      simpl in E1. rewrite <- app_assoc in E1. simpl in E1.
      split; simpl; rewrite El; simpl.
      * destruct k; auto; try congruence; try (exfalso; eapply H2; reflexivity).
      * unfold kv at 1. simpl. f_equal. auto.
Qed.

Lemma lex_spec i cs : Forall is_byte i -> chars_of i cs ->
  exists ts, lex u i = Some ts /\ lexes u cs (map kv ts) /\ located i 0%nat ts.
Proof.
  intros Hi Hc. unfold lex, lex_with.
  destruct (run_text u i Hi (S (length cs)) cs (Lexer i 0 0 0 []) 0%nat [] (S (2 * length i))%nat)
    as (l' & new & E & Et & Hl & Hloc).
  - lia.
  - constructor; reflexivity.
  - constructor; simpl; auto. lia.
  - assert (length cs <= length i)%nat; [|lia].
    rewrite <- (chars_bytes _ _ Hc). pose proof (chars_good _ _ Hi Hc) as Hg. clear -Hg.
    induction Hg as [|c cs (_ & Hne & _) _ IH]; simpl; auto.
    unfold bytes_of in *. simpl. rewrite app_length. destruct (snd c); [congruence|]. simpl. lia.
  - rewrite E. exists new. rewrite Et, app_nil_r, rev_involutive. auto.
Qed.

Lemma err_in_significant ts : token_of_stream_err ts = token_of_stream_err (significant ts).
Proof.
  unfold token_of_stream_err. induction ts as [|[k t] ts IH]; simpl; auto.
  destruct k; simpl; auto.
Qed.

Lemma doc_no_err d : doc_ok u d -> token_of_stream_err (doc_tokens d ++ [(KEOF, [])]) = false.
Proof.
  induction 1 as [|k t g d Hk Ht Hg Hd IH]; simpl; auto. rewrite IH.
  destruct (token_kind _ _ _ Ht) as [_ H]. destruct k; auto. exfalso; eapply H; reflexivity.
Qed.

(** A text made of leading layout and a document gives the document's tokens. *)
Lemma doc_filtered lead d i : Forall is_byte i -> layout (runes lead) -> doc_ok u d ->
  chars_of i (lead ++ doc_text d) ->
  exists out, lex_filtered u i = Some (inr out) /\ map kv out = doc_tokens d ++ [(KEOF, [])].
Proof.
  intros Hi Hlead Hd Hc.
  destruct (doc_lexes u d Hd) as (ts & Hts & Hsig).
  destruct (layout_lexes u (length lead) lead (doc_text d) ts) as (lts & Hl & Hs & _);
    eauto using doc_no_blank.
  destruct (lex_spec i _ Hi Hc) as (toks & E & Hlx & _).
  pose proof (lexes_unique u _ _ Hlx _ Hl) as Eq.
  assert (Hsg : significant (map kv toks) = doc_tokens d ++ [(KEOF, [])]).
  { rewrite Eq. unfold significant in *. rewrite filter_app, Hs. auto. }
  destruct (filter_spec toks []) as (out & E1 & E2).
  - exact (lexes_closed _ _ (chars_good _ _ Hi Hc) Hlx).
  - rewrite err_in_significant, Hsg. auto using doc_no_err.
  - exists out. unfold lex_filtered. rewrite E. split; auto. congruence.
Qed.

Theorem layout_irrelevant lead lead' d d' i i' :
  Forall is_byte i -> Forall is_byte i' ->
  layout (runes lead) -> layout (runes lead') ->
  doc_ok u d -> same_up_to_layout d d' ->
  chars_of i (lead ++ doc_text d) -> chars_of i' (lead' ++ doc_text d') ->
  exists out out', lex_filtered u i = Some (inr out) /\ lex_filtered u i' = Some (inr out') /\
    map kv out = map kv out' /\ map kv out = doc_tokens d ++ [(KEOF, [])].
Proof.
  intros Hi Hi' Hl Hl' Hd Hs Hc Hc'.
  destruct (doc_filtered lead d i) as (out & E & Eo); auto.
  destruct (doc_filtered lead' d' i') as (out' & E' & Eo'); eauto using same_ok.
  exists out, out'. repeat split; auto. rewrite Eo, Eo'. rewrite (same_tokens _ _ Hs). reflexivity.
Qed.
End Filter.
