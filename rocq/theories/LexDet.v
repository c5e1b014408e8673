(** The token specification is unambiguous. *)
From Coq Require Import Ascii String ZArith List Bool Lia.
From Verif Require Import LexModel LexSpec LexProofs LexRun.
Import ListNotations.
Open Scope Z_scope.

Section Det.
Variable u : unicode.

(** Class of the first character of a token. *)
Definition hclass (r : rune) : nat :=
  if (match assoc r one_char_tokens with Some _ => true | None => false end) then 1
  else if r =? 32 then 2
  else if is_end_of_line r then 3
  else if r =? 34 then 4
  else if (49 <=? r) && (r <=? 57) then 5
  else if r =? 48 then 6
  else if is_alphabetic u r then 7
  else 0.

Lemma two_char_cases r1 r2 k : two_char r1 r2 = Some k ->
  (r1, r2, k) = (58, 61, KDas) \/ (r1, r2, k) = (62, 62, KBRight) \/ (r1, r2, k) = (62, 61, KGte) \/
  (r1, r2, k) = (60, 60, KBLeft) \/ (r1, r2, k) = (60, 61, KLte) \/ (r1, r2, k) = (46, 46, KDotDot) \/
  (r1, r2, k) = (61, 61, KEq).
Proof.
  unfold two_char, two_char_tokens, assoc. norm_ch. intros H.
  repeat match type of H with
  | context [if ?a =? ?b then _ else _] => destruct (Z.eqb_spec a b); subst
  end; inversion H; subst; auto 10.
Qed.

Lemma word_start_class r : word_start u r -> hclass r = 7%nat.
Proof.
  intros H. unfold hclass. apply is_alphabetic_spec in H. rewrite H.
  unfold is_alphabetic, uc_is_letter in H.
  unfold one_char_tokens, assoc, is_end_of_line. norm_ch.
  destruct (r =? 95) eqn:E95.
  { apply Z.eqb_eq in E95. subst. reflexivity. }
  simpl orb in H.
  destruct (r <? 0) eqn:E0; [discriminate|]. destruct (r <? 128) eqn:E1.
  - repeat match goal with
    | |- context [if r =? ?b then _ else _] => destruct (Z.eqb_spec r b); [lia|]
    end.
    repeat match goal with
    | |- context [r =? ?b] => destruct (Z.eqb_spec r b); [lia|]
    end. simpl.
    destruct ((49 <=? r) && (r <=? 57)) eqn:E; [lia|reflexivity].
  - destruct (r =? 171) eqn:Ea; [discriminate|]. destruct (r =? 187) eqn:Eb; [discriminate|].
    repeat match goal with
    | |- context [if r =? ?b then _ else _] => destruct (Z.eqb_spec r b); [lia|]
    end.
    repeat match goal with
    | |- context [r =? ?b] => destruct (Z.eqb_spec r b); [lia|]
    end. simpl.
    destruct ((49 <=? r) && (r <=? 57)) eqn:E; [lia|reflexivity].
Qed.

Lemma digit19_cases r : In r (text "123456789") -> 49 <= r <= 57.
Proof. cbn. intuition lia. Qed.

Lemma one_char_class r k : assoc r one_char_tokens = Some k -> hclass r = 1%nat.
Proof. intros H. unfold hclass. rewrite H. reflexivity. Qed.

Lemma digit19_class r : In r (text "123456789") -> hclass r = 5%nat.
Proof.
  cbn. intros H. repeat (destruct H as [<-|H]; [reflexivity|]). destruct H.
Qed.

Lemma newline_class r : newline r -> hclass r = 3%nat.
Proof. intros [-> | ->]; reflexivity. Qed.

Lemma token_class k t rest : token_at u k t rest ->
  exists r t', t = r :: t' /\
  match hclass r with
  | 1%nat => (exists r2, t = [r; r2] /\ two_char r r2 = Some k) \/
         (t = [r] /\ assoc r one_char_tokens = Some k /\
           not_next (fun r2 => two_char r r2 <> None \/ (r = ch "/" /\ r2 = ch "/")) rest) \/
         (exists b, t = text "//" ++ b /\ k = KComment /\
           Forall (fun r => ~ newline r) b /\ end_or_next newline rest)
  | 2%nat => r = ch " " /\ k = KSpace /\ Forall (eq (ch " ")) t /\ not_next (eq (ch " ")) rest
  | 3%nat => t = [r] /\ k = KEOL /\ newline r
  | 4%nat => exists b, t = ch """" :: b ++ [ch """"] /\ k = KString /\ string_body b
  | 5%nat => k = KInteger /\ Forall (digit u) t' /\ not_next (digit u) rest
  | 6%nat => k = KInteger /\ r = ch "0" /\
         ((Forall (digit u) t' /\ not_next (digit u) rest /\ not_next (eq (ch "x")) (t' ++ rest)) \/
          (exists h hs, t' = ch "x" :: h :: hs /\ hex_digit u h /\ Forall (hex_digit u) hs /\
             not_next (hex_digit u) rest))
  | 7%nat => word_start u r /\ word_kind t k /\ Forall (word_cont u) t' /\ not_next (word_cont u) rest /\
         end_or_next may_follow_word rest
  | _ => False
  end.
Proof.
  destruct 1.
  - exists r1, [r2]. split; auto.
    assert (hclass r1 = 1%nat) as ->.
    { apply two_char_cases in H.
      repeat (destruct H as [E|H]; [inversion E; reflexivity|]); inversion H; reflexivity. }
    left. exists r2. auto.
  - exists r, []. split; auto. rewrite (one_char_class _ _ H). auto.
  - exists (ch " "), (repeat (ch " ") n). split; auto. simpl. repeat split; auto.
    constructor; auto. clear. induction n; simpl; auto.
  - exists r, []. split; auto. rewrite (newline_class _ H). auto.
  - exists (ch "/"), (ch "/" :: b). split; auto. simpl. right. right. exists b. auto.
  - eexists _, _. split; [reflexivity|]. simpl. eauto.
  - eexists _, _. split; [reflexivity|]. rewrite (digit19_class _ H). auto.
  - exists (ch "0"), ds. split; auto. simpl. split; auto.
  - exists (ch "0"), (ch "x" :: h :: hs). split; auto. simpl. split; auto. split; auto.
    right. eauto 10.
  - exists r, w. split; auto. rewrite (word_start_class _ H). auto.
Qed.

(** Longest prefixes are unique. *)
Lemma span_unique (P : rune -> Prop) a : forall b a' b',
  Forall P a -> not_next P b -> Forall P a' -> not_next P b' -> a ++ b = a' ++ b' ->
  a = a' /\ b = b'.
Proof.
  induction a as [|x a IH]; intros b a' b' Ha Hb Ha' Hb' E.
  - destruct a' as [|y a']; auto. simpl in E. subst b. inversion Ha'; subst. simpl in Hb. contradiction.
  - destruct a' as [|y a'].
    + simpl in E. subst b'. inversion Ha; subst. simpl in Hb'. contradiction.
    + simpl in E. inversion E; subst. inversion Ha; inversion Ha'; subst.
      destruct (IH b a' b') as [-> ->]; auto.
Qed.

Lemma body_unique b : string_body b -> forall b' rest rest', string_body b' ->
  b ++ ch """" :: rest = b' ++ ch """" :: rest' -> b = b' /\ rest = rest'.
Proof.
  induction 1 as [|r b H1 H2 Hb IH|r b Hr Hb IH]; intros b' rest rest' Hb' E.
  - inversion Hb'; subst; simpl in E; inversion E; subst; auto; congruence.
  - inversion Hb'; subst; simpl in E; inversion E; subst; try congruence.
    match goal with HB : string_body ?x, HE : b ++ _ = ?x ++ _ |- _ => destruct (IH _ _ _ HB HE) as [-> ->] end. auto.
  - inversion Hb'; subst; simpl in E; inversion E; subst; try congruence.
    match goal with HB : string_body ?x, HE : b ++ _ = ?x ++ _ |- _ => destruct (IH _ _ _ HB HE) as [-> ->] end. auto.
Qed.

(** A body is never cut by the end of the text, a bad escape, or a quote. *)
Lemma body_closed_or_not b : string_body b -> forall b' rest', string_body b' ->
  b = b' ++ ch """" :: rest' -> False.
Proof.
  induction 1 as [|r b H1 H2 Hb IH|r b Hr Hb IH]; intros b' rest' Hb' E.
  - destruct b'; discriminate.
  - inversion Hb'; subst; simpl in E; inversion E; subst; try congruence. eapply IH; eauto.
  - inversion Hb'; subst; simpl in E; inversion E; subst; try congruence. eapply IH; eauto.
Qed.

Lemma body_escape_or_not b : string_body b -> forall b' rest rest', string_body b' ->
  not_next (fun r => In r (ch """" :: text "rn\")) rest' ->
  b ++ ch """" :: rest = b' ++ ch "\" :: rest' -> False.
Proof.
  induction 1 as [|r b H1 H2 Hb IH|r b Hr Hb IH]; intros b' rest rest' Hb' Hn E.
  - inversion Hb'; subst; simpl in E; inversion E; subst; congruence.
  - inversion Hb'; subst; simpl in E; inversion E; subst; try congruence. eapply IH; eauto.
  - inversion Hb'; subst; simpl in E; inversion E; subst; try congruence;
    solve [exfalso; apply Hn; exact Hr | eapply IH; eauto].
Qed.

Lemma body_end_or_escape b : string_body b -> forall b' rest', string_body b' ->
  not_next (fun r => In r (ch """" :: text "rn\")) rest' ->
  b = b' ++ ch "\" :: rest' -> False.
Proof.
  induction 1 as [|r b H1 H2 Hb IH|r b Hr Hb IH]; intros b' rest' Hb' Hn E.
  - destruct b'; discriminate.
  - inversion Hb'; subst; simpl in E; inversion E; subst; try congruence. eapply IH; eauto.
  - inversion Hb'; subst; simpl in E; inversion E; subst; try congruence;
    solve [exfalso; apply Hn; exact Hr | eapply IH; eauto].
Qed.

Lemma word_kind_functional w k k' : word_kind w k -> word_kind w k' -> k = k'.
Proof.
  assert (Hinj : forall s s' k k', In (s, k) keywords -> In (s', k') keywords -> text s = text s' -> k = k').
  { intros s s' q q' H H' E.
    assert (X : forall a b, text a = text b -> a = b).
    { induction a as [|c a IHa]; destruct b as [|c' b]; intros E'; try discriminate; auto.
      inversion E'. f_equal; auto. unfold ch in H1.
      apply N2Z.inj in H1. rewrite <- (ascii_N_embedding c), <- (ascii_N_embedding c'). congruence. }
    apply X in E. subst s'. clear X.
    cbn in H, H'.
    repeat (destruct H as [E|H]; [inversion E; subst; clear E;
      repeat (destruct H' as [E|H']; [inversion E; subst; reflexivity|]); contradiction|]); contradiction. }
  intros [(s & Hs & E)|(Ek & Hn)] [(s' & Hs' & E')|(Ek' & Hn')]; subst; auto.
  - eapply Hinj; eauto.
  - exfalso. eapply Hn'; eauto.
  - exfalso. eapply Hn; eauto.
Qed.

Lemma repeat_spaces t : Forall (eq (ch " ")) t -> t = repeat (ch " ") (length t).
Proof. induction 1; simpl; congruence. Qed.

Lemma digit_not_x : ~ digit u (ch "x").
Proof. intros H. discriminate H. Qed.

Lemma token_unique k1 t1 r1 k2 t2 r2 :
  token_at u k1 t1 r1 -> token_at u k2 t2 r2 -> t1 ++ r1 = t2 ++ r2 -> k1 = k2 /\ t1 = t2 /\ r1 = r2.
Proof.
  intros H1 H2 E.
  destruct (token_class _ _ _ H1) as (a & t1' & E1 & C1).
  destruct (token_class _ _ _ H2) as (b & t2' & E2 & C2).
  assert (a = b) by (subst t1 t2; simpl in E; inversion E; auto). subst b.
  destruct (hclass a) as [|[|[|[|[|[|[|[|?]]]]]]]]; try contradiction.
  - (* operators and comments *)
    destruct C1 as [(x & X1 & X2)|[(X1 & X2 & X3)|(x & X1 & X2 & X3 & X4)]];
    destruct C2 as [(y & Y1 & Y2)|[(Y1 & Y2 & Y3)|(y & Y1 & Y2 & Y3 & Y4)]].
    + rewrite X1, Y1 in *. simpl in E. inversion E; subst. split; [congruence|auto].
    + rewrite X1, Y1 in *. simpl in E. inversion E; subst. simpl in Y3. exfalso. apply Y3. left. congruence.
    + rewrite X1, Y1 in *. simpl in E. inversion E; subst. exfalso.
      apply two_char_cases in X2. intuition discriminate.
    + rewrite X1, Y1 in *. simpl in E. inversion E; subst. simpl in X3. exfalso. apply X3. left. congruence.
    + rewrite X1, Y1 in *. simpl in E. inversion E; subst. split; [congruence|auto].
    + rewrite X1, Y1 in *. simpl in E. inversion E; subst. simpl in X3. exfalso. apply X3. right. auto.
    + rewrite X1, Y1 in *. simpl in E. inversion E; subst. exfalso.
      apply two_char_cases in Y2. intuition discriminate.
    + rewrite X1, Y1 in *. simpl in E. inversion E; subst. simpl in Y3. exfalso. apply Y3. right. auto.
    + rewrite X1, Y1 in *. simpl in E. inversion E. subst k1 k2. split; auto.
      destruct (span_unique (fun r => ~ newline r) x r1 y r2) as [-> ->]; auto.
      * destruct r1; simpl in *; tauto.
      * destruct r2; simpl in *; tauto.
  - destruct C1 as (_ & -> & F1 & N1), C2 as (_ & -> & F2 & N2). split; auto.
    eapply span_unique; eauto.
  - destruct C1 as (X1 & -> & _), C2 as (Y1 & -> & _). split; auto. rewrite X1, Y1 in *.
    simpl in E. inversion E; auto.
  - destruct C1 as (x & X1 & -> & B1), C2 as (y & Y1 & -> & B2). split; auto.
    rewrite X1, Y1 in *. simpl in E. inversion E as [E']. rewrite <- !app_assoc in E'. simpl in E'.
    destruct (body_unique _ B1 _ _ _ B2 E') as [-> ->]. auto.
  - destruct C1 as (-> & F1 & N1), C2 as (-> & F2 & N2). split; auto. subst t1 t2.
    simpl in E. inversion E as [E']. destruct (span_unique _ _ _ _ _ F1 N1 F2 N2 E') as [-> ->]. auto.
  - destruct C1 as (-> & E0 & C1), C2 as (-> & _ & C2). split; auto. subst t1 t2. simpl in E.
    inversion E as [E'].
    destruct C1 as [(F1 & N1 & M1)|(h & hs & -> & Hh & Hhs & Hn)];
    destruct C2 as [(F2 & N2 & M2)|(h' & hs' & -> & Hh' & Hhs' & Hn')].
    + destruct (span_unique _ _ _ _ _ F1 N1 F2 N2 E') as [-> ->]. auto.
    + exfalso. rewrite E' in M1. simpl in M1. auto.
    + exfalso. rewrite <- E' in M2. simpl in M2. auto.
    + simpl in E'. inversion E' as [[Eh E'']]. subst h'.
      destruct (span_unique _ _ _ _ _ Hhs Hn Hhs' Hn' E'') as [-> ->]. auto.
  - destruct C1 as (_ & K1 & F1 & N1 & _), C2 as (_ & K2 & F2 & N2 & _). subst t1 t2. simpl in E.
    inversion E as [E']. destruct (span_unique _ _ _ _ _ F1 N1 F2 N2 E') as [-> ->].
    split; auto. eapply word_kind_functional; eauto.
Qed.

(** Class of the first character of an error. *)
Lemma error_class e rs : error_at u e rs ->
  exists r rs', rs = r :: rs' /\
  match hclass r with
  | 0%nat => e = UnexpectedCharacter r
  | 4%nat => (e = UnclosedString /\ string_body rs') \/
     (e = UnknownEscape /\ exists b rest, rs' = b ++ ch "\" :: rest /\ string_body b /\
        not_next (fun r => In r (ch """" :: text "rn\")) rest)
  | 6%nat => e = HexWithoutDigits /\ exists rest, rs' = ch "x" :: rest /\ not_next (hex_digit u) rest
  | 7%nat => exists w r' rest, e = UnexpectedCharacter r' /\ rs' = w ++ r' :: rest /\
     Forall (word_cont u) w /\ ~ word_cont u r' /\ ~ may_follow_word r'
  | _ => False
  end.
Proof.
  destruct 1.
  - exists r, rest. split; auto.
    assert (hclass r = 0%nat) as ->; auto.
    unfold hclass. rewrite H.
    destruct (Z.eqb_spec r 32); [subst; exfalso; apply H0; reflexivity|].
    destruct (is_end_of_line r) eqn:En; [apply is_end_of_line_spec in En; contradiction|].
    destruct (Z.eqb_spec r 34); [subst; exfalso; apply H1; reflexivity|].
    assert (~ (48 <= r <= 57)).
    { intros X. apply H3. cbn.
      assert (r = 48 \/ r = 49 \/ r = 50 \/ r = 51 \/ r = 52 \/ r = 53 \/ r = 54 \/ r = 55 \/ r = 56 \/ r = 57) by lia.
      intuition. }
    destruct ((49 <=? r) && (r <=? 57)) eqn:E; [lia|].
    destruct (Z.eqb_spec r 48); [lia|].
    destruct (is_alphabetic u r) eqn:Ea; auto. apply is_alphabetic_spec in Ea. contradiction.
  - exists r, (w ++ r' :: rest). split; auto. rewrite (word_start_class _ H). eauto 10.
  - eexists _, _. split; [reflexivity|]. simpl. auto.
  - eexists _, _. split; [reflexivity|]. simpl. right. eauto 10.
  - exists (ch "0"), (ch "x" :: rest). split; auto. simpl. eauto.
Qed.

Lemma error_not_token e rs k t rest :
  error_at u e rs -> token_at u k t rest -> rs = t ++ rest -> False.
Proof.
  intros H1 H2 E.
  destruct (error_class _ _ H1) as (a & rs' & E1 & C1).
  destruct (token_class _ _ _ H2) as (b & t2' & E2 & C2).
  assert (a = b) by (subst; simpl in *; congruence). subst b.
  destruct (hclass a) as [|[|[|[|[|[|[|[|?]]]]]]]]; try contradiction.
  - destruct C2 as (x & X1 & _ & X3).
    assert (E' : rs' = x ++ ch """" :: rest).
    { rewrite X1, E1 in E. simpl in E. rewrite <- app_assoc in E. simpl in E. congruence. }
    destruct C1 as [(_ & Hb)|(_ & b & r' & Er & Hb & Hn)].
    + exact (body_closed_or_not _ Hb _ _ X3 E').
    + rewrite Er in E'. eapply body_escape_or_not; [exact X3|exact Hb|exact Hn|symmetry; exact E'].
  - destruct C1 as (_ & r' & Er & Hn). destruct C2 as (_ & _ & C2).
    assert (E' : ch "x" :: r' = t2' ++ rest) by (rewrite E1, E2 in E; simpl in E; congruence).
    destruct C2 as [(_ & _ & M)|(h & hs & -> & Hh & _)].
    + rewrite <- E' in M. simpl in M. auto.
    + simpl in E'. inversion E'; subst. simpl in Hn. auto.
  - destruct C1 as (w & r' & rest' & _ & Er & Hw & Hn & Hm). destruct C2 as (_ & _ & Hw2 & Hn2 & Hm2).
    assert (E' : w ++ r' :: rest' = t2' ++ rest) by (rewrite E1, E2 in E; simpl in E; congruence).
    destruct (span_unique (word_cont u) w (r' :: rest') t2' rest Hw Hn Hw2 Hn2 E') as [-> Er2]. subst rest. simpl in Hm2. auto.
Qed.

Lemma error_unique e e' rs : error_at u e rs -> error_at u e' rs -> e = e'.
Proof.
  intros H1 H2.
  destruct (error_class _ _ H1) as (a & rs1 & E1 & C1).
  destruct (error_class _ _ H2) as (b & rs2 & E2 & C2).
  assert (E : a :: rs1 = b :: rs2) by congruence. inversion E; subst b rs2. clear E E1 E2.
  destruct (hclass a) as [|[|[|[|[|[|[|[|?]]]]]]]]; try contradiction; try congruence.
  - destruct C1 as [(-> & Hb)|(-> & b & r' & Er & Hb & Hn)]; destruct C2 as [(-> & Hb')|(-> & b' & r2 & Er' & Hb' & Hn')]; auto.
    + exfalso. eapply body_end_or_escape; [exact Hb|exact Hb'|exact Hn'|exact Er'].
    + exfalso. eapply body_end_or_escape; [exact Hb'|exact Hb|exact Hn|exact Er].
  - destruct C1 as (-> & _), C2 as (-> & _). auto.
  - destruct C1 as (w & r' & rest' & -> & Er & Hw & Hn & Hm), C2 as (w2 & r2 & rest2 & -> & Er2 & Hw2 & Hn2 & Hm2).
    assert (E : w ++ r' :: rest' = w2 ++ r2 :: rest2) by congruence.
    destruct (span_unique (word_cont u) w (r' :: rest') w2 (r2 :: rest2) Hw Hn Hw2 Hn2 E) as [_ E']. congruence.
Qed.

Lemma token_not_nil k rest : ~ token_at u k [] rest.
Proof. intros H. destruct (token_class _ _ _ H) as (? & ? & E & _). discriminate. Qed.

Lemma error_not_nil e : ~ error_at u e [].
Proof. intros H. destruct (error_class _ _ H) as (? & ? & E & _). discriminate. Qed.

Lemma map_split {A B} (f : A -> B) a : forall b a' b', map f a ++ map f b = map f a' ++ map f b' ->
  a ++ b = a' ++ b' -> map f a = map f a' -> a = a' /\ b = b'.
Proof.
  induction a as [|x a IH]; intros b [|y a'] b' E1 E2 E3; simpl in *; try discriminate; auto.
  inversion E1; inversion E2; inversion E3; subst. destruct (IH b a' b') as [-> ->]; auto.
Qed.

Lemma lexes_unique cs ts1 : lexes u cs ts1 -> forall ts2, lexes u cs ts2 -> ts1 = ts2.
Proof.
  induction 1 as [|e cs He|k t rest ts Ht Hr IH]; intros ts2 H2.
  - inversion H2 as [E|e' cs' He' E|k' t' rest' ts' Ht' Hr' E Ets]; subst; auto.
    + exfalso. eapply error_not_nil. exact He'.
    + apply app_eq_nil in E. destruct E; subst. exfalso. eapply token_not_nil. exact Ht'.
  - inversion H2 as [E|e' cs' He' E|k' t' rest' ts' Ht' Hr' E Ets]; subst.
    + exfalso. eapply error_not_nil; eauto.
    + f_equal. f_equal. f_equal. eapply error_unique; eauto.
    + exfalso. eapply error_not_token; eauto. unfold runes. apply map_app.
  - inversion H2 as [E|e' cs' He' E|k' t' rest' ts' Ht' Hr' E Ets]; subst.
    + symmetry in E. apply app_eq_nil in E. destruct E; subst. exfalso. eapply token_not_nil; eauto.
    + exfalso. eapply error_not_token; eauto. unfold runes. apply map_app.
    + assert (E' : runes t' ++ runes rest' = runes t ++ runes rest).
      { unfold runes. rewrite <- !map_app. f_equal. auto. }
      destruct (token_unique _ _ _ _ _ _ Ht' Ht E') as (-> & Et & Er).
      destruct (map_split fst t' rest' t rest E' E Et) as [-> ->]. f_equal. auto.
Qed.
End Det.
