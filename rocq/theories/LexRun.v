(** The lexer model produces exactly the token stream of the specification. *)
From Coq Require Import Ascii String ZArith List Bool Lia.
From Verif Require Import LexModel LexSpec LexProofs.
Import ListNotations.
Open Scope Z_scope.

Definition kv (t : token) : kind * list byte := (tk_kind t, tk_val t).

(** Compute character codes in the goal. *)
Ltac norm_ch := repeat match goal with
  |- context [ch ?a] => let v := eval vm_compute in (ch a) in change (ch a) with v end.

Section Run.
Variable u : unicode.
Variable i : list byte.
Hypothesis Hi : Forall is_byte i.

(** Locations of the tokens of a stream whose first token starts at offset [p]. *)
Fixpoint located (p : nat) (ts : list token) : Prop :=
  match ts with
  | [] => True
  | t :: r =>
    tk_line t = ln i p /\
    ((forall e, tk_kind t <> KErr e) -> tk_pos t = lp i p) /\
    located (p + length (tk_val t)) r
  end.

Definition result (fuel : nat) (st : state) (l : lexer) (p : nat) (ts : list token) (cs : list uchar) : Prop :=
  exists l' new, run u fuel st l = Some l' /\ lx_tokens l' = rev new ++ ts /\
    lexes u cs (map kv new) /\ located p new.

(** Everything proved for shorter remainders. *)
Definition shorter (n : nat) : Prop :=
  forall cs l p ts fuel, (length cs < n)%nat -> view l i p p ts -> ahead i p cs ->
    (2 * length cs < fuel)%nat -> result fuel LText l p ts cs.

Lemma finish k l s t rest ts fuel n :
  shorter n -> (length (t ++ rest) <= n)%nat -> t <> [] ->
  (forall e, k <> KErr e) ->
  view l i s (s + length (bytes_of t)) ts -> ahead i s (t ++ rest) ->
  token_at u k (runes t) (runes rest) -> (2 * length rest < fuel)%nat ->
  result fuel LText (emit k l) s ts (t ++ rest).
Proof.
  intros Hn Hlen Ht Hk Hv Ha Htok Hf.
  destruct (ahead_app _ _ _ _ Hi Ha) as [Ha' Hs].
  pose proof (emit_spec i k l _ _ _ Hv) as Hve.
  assert (length rest < n)%nat by (rewrite app_length in Hlen; destruct t; simpl in *; [congruence|lia]).
  destruct (Hn rest _ _ _ fuel H Hve Ha' Hf) as (l' & new & Hr & Ht' & Hl & Hloc).
  exists l', (Token k (slice i s (s + length (bytes_of t))) (lp i s) (ln i s) :: new).
  split; [exact Hr|]. split.
  { rewrite Ht'. simpl. rewrite <- app_assoc. reflexivity. }
  split.
  - simpl. unfold kv at 1. simpl. rewrite Hs. constructor; auto.
  - simpl. repeat split; auto. rewrite Hs. auto.
Qed.

Lemma fail e l s p ts cs fuel st l0 :
  step u st l0 = Some (errorf e l, None) ->
  view l i s p ts -> error_at u e (runes cs) -> (0 < fuel)%nat ->
  result fuel st l0 s ts cs.
Proof.
  intros Hst Hv He Hf. destruct fuel as [|f]; [lia|].
  pose proof (errorf_spec i e l _ _ _ Hv) as Hv'.
  exists (errorf e l), [Token (KErr e) [] (lp i p) (ln i s)].
  split; [simpl; rewrite Hst; reflexivity|]. split; [destruct Hv'; auto|]. split.
  - simpl. unfold kv. simpl. constructor; auto.
  - simpl. repeat split; auto. intros X. exfalso. apply (X e). reflexivity.
Qed.

Lemma result_step fuel st l st' l' p ts cs :
  step u st l = Some (l', Some st') -> result fuel st' l' p ts cs -> result (S fuel) st l p ts cs.
Proof.
  intros H (l2 & new & Hr & R). exists l2, new. split; auto. simpl. rewrite H. auto.
Qed.

(** The span of a predicate, in terms of runes. *)
Lemma span_forall p cs (P : rune -> Prop) : (forall r, p r = true -> P r) ->
  Forall P (runes (fst (span p cs))).
Proof.
  intros H. unfold runes. apply Forall_map. eapply Forall_impl; [|apply span_all]. simpl. auto.
Qed.

Lemma span_not_next p cs (P : rune -> Prop) : (forall r, P r -> p r = true) ->
  not_next P (runes (snd (span p cs))).
Proof.
  intros H. pose proof (span_stop p cs) as S. destruct (snd (span p cs)); simpl; auto.
  intros HP. apply H in HP. congruence.
Qed.

Lemma is_alphabetic_spec r : is_alphabetic u r = true <-> word_start u r.
Proof. unfold is_alphabetic, word_start. rewrite orb_true_iff, Z.eqb_eq. reflexivity. Qed.

Lemma is_numeric_spec r : is_numeric u r = true <-> digit u r.
Proof. reflexivity. Qed.

Lemma is_alpha_numeric_spec r : is_alpha_numeric u r = true <-> word_cont u r.
Proof.
  unfold is_alpha_numeric, word_cont. rewrite orb_true_iff, is_alphabetic_spec. reflexivity.
Qed.

Lemma is_hexadecimal_spec r : is_hexadecimal u r = true <-> hex_digit u r.
Proof.
  unfold is_hexadecimal, hex_digit. rewrite !orb_true_iff, !Z.eqb_eq. unfold is_numeric, digit.
  cbn. intuition.
Qed.

Lemma is_end_of_line_spec r : is_end_of_line r = true <-> newline r.
Proof. unfold is_end_of_line, newline. rewrite orb_true_iff, !Z.eqb_eq. reflexivity. Qed.

Lemma is_escape_spec r : is_escape r = true <-> In r (ch """" :: text "rn\").
Proof. unfold is_escape. rewrite !orb_true_iff, !Z.eqb_eq. cbn. intuition. Qed.

(** Keywords: bytes of a word against its runes. *)
Lemma ascii_word t w : Forall good_char t -> Forall (fun b => 0 <= b < 128) w ->
  (bytes_of t = w <-> runes t = w).
Proof.
  intros Hg. revert w. induction Hg as [|c t (H0 & Hne & H1 & H2 & H3) Hg IH]; intros w Hw.
  - split; auto.
  - unfold bytes_of, runes in *. simpl. split; intros E.
    + destruct (snd c) as [|b r] eqn:Ec; [congruence|]. simpl in E. subst w.
      inversion Hw as [|? ? Hb Hw']; subst.
      assert (r = []) by (eapply H3; [reflexivity|lia]). subst r. simpl in *.
      rewrite (H2 b) by auto. f_equal. apply IH; auto.
    + destruct w as [|b w]; [discriminate|]. inversion E; subst. inversion Hw; subst.
      rewrite H1 by lia. simpl. f_equal. apply IH; auto.
Qed.

Lemma bytes_eqb_spec a b : bytes_eqb a b = true <-> a = b.
Proof.
  revert b. induction a as [|x a IH]; destruct b; simpl; split; try congruence; intros H.
  - apply andb_true_iff in H. destruct H as [H1 H2]. apply Z.eqb_eq in H1. apply IH in H2. congruence.
  - inversion H; subst. rewrite Z.eqb_refl. apply IH. auto.
Qed.

Lemma key_table_text : key_table = map (fun '(s, k) => (text s, k)) keywords.
Proof. reflexivity. Qed.

Lemma key_lookup_spec (tbl : list (list byte * kind)) w :
  match key_lookup tbl w with
  | Some k => In (w, k) tbl
  | None => forall k, ~ In (w, k) tbl
  end.
Proof.
  induction tbl as [|[w' k'] t IH]; simpl; [tauto|].
  destruct (bytes_eqb w w') eqn:E.
  - apply bytes_eqb_spec in E. subst. auto.
  - assert (w <> w') by (intro X; apply bytes_eqb_spec in X; congruence).
    destruct (key_lookup t w); [auto|]. intros k [X|X]; [congruence|eapply IH; eauto].
Qed.

Lemma keyword_ascii s k : In (s, k) keywords -> Forall (fun b => 0 <= b < 128) (text s).
Proof.
  intros H. cbn in H.
  repeat (destruct H as [E|H]; [inversion E; subst; cbn; repeat constructor; lia|]). destruct H.
Qed.

Lemma keyword_is_keyword s k : In (s, k) keywords -> is_keyword k = true.
Proof.
  intros H. cbn in H.
  repeat (destruct H as [E|H]; [inversion E; subst; reflexivity|]). destruct H.
Qed.

Lemma word_kind_spec t : Forall good_char t ->
  exists k, word_kind (runes t) k /\ (forall e, k <> KErr e) /\
    match key_lookup key_table (bytes_of t) with
    | Some k' => k = k' /\ is_keyword k' = true
    | None => k = KIdentifier
    end.
Proof.
  intros Hg. pose proof (key_lookup_spec key_table (bytes_of t)) as H.
  rewrite key_table_text in *.
  destruct (key_lookup _ (bytes_of t)) as [k|].
  - apply in_map_iff in H. destruct H as ([s k'] & E & Hin). inversion E; subst.
    exists k. pose proof (keyword_is_keyword _ _ Hin) as Hk. split; [|split; auto].
    + left. exists s. split; auto. apply ascii_word; auto. eapply keyword_ascii; eauto.
    + intros e X. subst k. discriminate Hk.
  - exists KIdentifier. split; [|split; [discriminate|auto]].
    right. split; auto. intros s k' Hin E. apply (H k').
    apply in_map_iff. exists (s, k'). split; auto. f_equal.
    symmetry. apply ascii_word; auto. eapply keyword_ascii; eauto.
Qed.

Lemma terminators_spec r : existsb (Z.eqb r) terminators = true <-> r = eof \/ may_follow_word r.
Proof.
  rewrite existsb_exists. unfold may_follow_word, newline. split.
  - intros (x & Hin & E). apply Z.eqb_eq in E. subst x. cbn in Hin |- *. intuition.
  - intros H. exists r. split; [|apply Z.eqb_refl]. cbn in H |- *. intuition.
Qed.

(* ------------------------------------------------------------ state functions *)

Lemma runes_app a b : runes (a ++ b) = runes a ++ runes b.
Proof. apply map_app. Qed.

Lemma runes_forall (P : rune -> Prop) cs : Forall P (runes cs) <-> Forall (fun c => P (fst c)) cs.
Proof. unfold runes. apply Forall_map. Qed.

Lemma ascii_bytes c r : good_char c -> fst c = r -> r < 128 -> snd c = [r].
Proof. intros (_ & _ & H & _) E Hr. subst. auto. Qed.

Lemma span_len p cs : (length (snd (span p cs)) <= length cs)%nat.
Proof. rewrite <- (span_app p cs) at 2. rewrite app_length. lia. Qed.

(** Common to the loops: what [accept_while] leaves. *)
Lemma loop_spec pr l s p ts t cs :
  view l i s p ts -> ahead i s (t ++ cs) -> p = (s + length (bytes_of t))%nat ->
  exists l', accept_while (loop_fuel l) pr l = Some l' /\
    view l' i s (s + length (bytes_of (t ++ fst (span pr cs)))) ts /\
    ahead i s ((t ++ fst (span pr cs)) ++ snd (span pr cs)).
Proof.
  intros Hv Ha Hp. destruct (ahead_app _ _ _ _ Hi Ha) as [Ha' _].
  rewrite (view_fuel i _ _ _ _ Hv).
  destruct (accept_while_spec i Hi pr (S (length i)) l s p ts cs Hv) as (l' & E & Hv').
  { subst p. auto. } { lia. }
  exists l'. split; auto. split.
  - unfold bytes_of in *. rewrite map_app, concat_app, app_length, Nat.add_assoc. subst p. auto.
  - rewrite <- app_assoc, span_app. auto.
Qed.

(** Lexer states entered with a non-empty consumed part [t]. *)
Definition mid (l : lexer) (s : nat) (ts : list token) (t cs : list uchar) : Prop :=
  view l i s (s + length (bytes_of t)) ts /\ ahead i s (t ++ cs) /\ t <> [].

Lemma space_result n fuel l s ts t cs :
  shorter n -> (length (t ++ cs) <= n)%nat -> mid l s ts t cs ->
  Forall (fun c => fst c = 32) t -> (2 * length cs + 1 < fuel)%nat ->
  result fuel LSpace l s ts (t ++ cs).
Proof.
  intros Hn Hlen (Hv & Ha & Ht) Hsp Hf. destruct fuel as [|f]; [lia|].
  destruct (loop_spec (fun r => r =? 32) l s _ ts t cs Hv Ha eq_refl) as (l1 & E & Hv1 & Ha1).
  eapply result_step.
  { simpl. unfold lex_space. rewrite E. reflexivity. }
  rewrite <- (span_app (fun r => r =? 32) cs), app_assoc.
  eapply finish with (n := n); eauto.
  - rewrite <- app_assoc, span_app. auto.
  - destruct t; [congruence|discriminate].
  - discriminate.
  - assert (Hall : Forall (fun r => r = ch " ") (runes (t ++ fst (span (fun r => r =? 32) cs)))).
    { apply runes_forall, Forall_app. split; auto.
      eapply Forall_impl; [|apply span_all]. simpl. intros a Ea. apply Z.eqb_eq in Ea. auto. }
    assert (Hrep : exists m, runes (t ++ fst (span (fun r => r =? 32) cs)) = repeat (ch " ") (S m)).
    { destruct t as [|c t]; [congruence|]. simpl app in *. simpl runes in *.
      exists (length (runes (t ++ fst (span (fun r => r =? 32) cs)))).
      inversion Hall as [|? ? E0 Hall']; subst. simpl. f_equal; auto.
      clear -Hall'. unfold runes in *. induction Hall'; simpl; auto. f_equal; auto. }
    destruct Hrep as [m Em]. rewrite Em. constructor.
    apply span_not_next. intros r <-. reflexivity.
  - pose proof (span_len (fun r => r =? 32) cs). lia.
Qed.

Lemma app_nonnil {A} (t r : list A) : t <> [] -> t ++ r <> [].
Proof. destruct t; [congruence|discriminate]. Qed.

Lemma comment_result n fuel l s ts t cs :
  shorter n -> (length (t ++ cs) <= n)%nat -> mid l s ts t cs ->
  runes t = text "//" -> (2 * length cs + 1 < fuel)%nat ->
  result fuel LComment l s ts (t ++ cs).
Proof.
  intros Hn Hlen (Hv & Ha & Ht) Hsp Hf. destruct fuel as [|f]; [lia|].
  set (pr := fun r => negb (is_end_of_line r)).
  destruct (loop_spec pr l s _ ts t cs Hv Ha eq_refl) as (l1 & E & Hv1 & Ha1).
  eapply result_step.
  { simpl. unfold lex_comment. fold pr. rewrite E. reflexivity. }
  rewrite <- (span_app pr cs), app_assoc.
  eapply finish with (n := n); eauto.
  - rewrite <- app_assoc, span_app. auto.
  - apply app_nonnil; auto.
  - discriminate.
  - rewrite runes_app, Hsp. constructor.
    + apply span_forall. intros r Hr X. apply is_end_of_line_spec in X. unfold pr in Hr. rewrite X in Hr. discriminate.
    + pose proof (span_stop pr cs) as S. destruct (snd (span pr cs)); simpl; auto.
      apply is_end_of_line_spec. unfold pr in S. apply negb_false_iff in S. auto.
  - pose proof (span_len pr cs). lia.
Qed.

Lemma integer_result n fuel l s ts t cs pr st :
  shorter n -> (length (t ++ cs) <= n)%nat -> mid l s ts t cs ->
  (forall t' rest, cs = t' ++ rest -> Forall (fun c => pr (fst c) = true) t' ->
     not_next (fun r => pr r = true) (runes rest) ->
     token_at u KInteger (runes (t ++ t')) (runes rest)) ->
  (2 * length cs + 1 < fuel)%nat ->
  forall l0, step u st l0 = lex_integer pr l ->
  result fuel st l0 s ts (t ++ cs).
Proof.
  intros Hn Hlen (Hv & Ha & Ht) Htok Hf l0 Hst. destruct fuel as [|f]; [lia|].
  destruct (loop_spec pr l s _ ts t cs Hv Ha eq_refl) as (l1 & E & Hv1 & Ha1).
  eapply result_step.
  { rewrite Hst. unfold lex_integer. rewrite E. reflexivity. }
  rewrite <- (span_app pr cs), app_assoc.
  eapply finish with (n := n); eauto.
  - rewrite <- app_assoc, span_app. auto.
  - apply app_nonnil; auto.
  - discriminate.
  - apply Htok. + symmetry; apply span_app. + apply span_all. + apply span_not_next. auto.
  - pose proof (span_len pr cs). lia.
Qed.

Lemma identifier_result n fuel l s ts t cs :
  shorter n -> (length (t ++ cs) <= n)%nat -> mid l s ts t cs ->
  (exists c, t = [c] /\ word_start u (fst c)) -> (2 * length cs + 1 < fuel)%nat ->
  result fuel LIdentifier l s ts (t ++ cs).
Proof.
  intros Hn Hlen (Hv & Ha & Ht) (c & Ec & Hstart) Hf. destruct fuel as [|f]; [lia|].
  set (pr := is_alpha_numeric u).
  destruct (loop_spec pr l s _ ts t cs Hv Ha eq_refl) as (l1 & E & Hv1 & Ha1).
  set (w := fst (span pr cs)) in *. set (rest := snd (span pr cs)) in *.
  assert (Hcs : cs = w ++ rest) by (symmetry; apply span_app).
  destruct (ahead_app _ _ _ _ Hi Ha1) as [Ha2 Hs2].
  destruct (peek_spec i Hi _ _ _ _ _ Hv1 Ha2) as (l2 & E2 & Hv2).
  assert (Hw : Forall (word_cont u) (runes w)).
  { apply span_forall. intros r Hr. apply is_alpha_numeric_spec. auto. }
  assert (Hnn : not_next (word_cont u) (runes rest)).
  { apply span_not_next. intros r Hr. apply is_alpha_numeric_spec. auto. }
  assert (Hgood : Forall good_char ((t ++ w) ++ rest)) by (eapply ahead_good; eauto).
  pose proof (terminators_spec (head_rune rest)) as Hterm.
  destruct (existsb (Z.eqb (head_rune rest)) terminators) eqn:Eterm.
  - destruct (word_kind_spec (t ++ w)) as (k & Hk & Hne & Hlook).
    { apply Forall_app in Hgood; tauto. }
    eapply result_step with (st' := LText) (l' := emit k l2).
    { simpl. unfold lex_identifier. fold pr. rewrite E. unfold at_terminator. rewrite E2, Eterm.
      simpl negb. cbv iota. destruct Hv2 as [V1 V2 V3 V4]. rewrite V1, V2, V3.
      rewrite Hs2. destruct (key_lookup key_table (bytes_of (t ++ w))) as [k'|].
      - destruct Hlook as [-> Hkw]. rewrite Hkw. reflexivity.
      - subst k. reflexivity. }
    rewrite Hcs, app_assoc.
    eapply finish with (n := n); eauto.
    + rewrite <- app_assoc, <- Hcs. auto.
    + apply app_nonnil; auto.
    + subst t. simpl app. simpl runes. simpl in Hk. apply tok_word; auto.
      destruct rest as [|c' rest']; simpl; auto.
      simpl in Hterm. destruct Hterm as [Hterm _]. destruct (Hterm eq_refl) as [X|X]; auto.
      exfalso. apply Forall_app in Hgood. destruct Hgood as [_ G]. destruct (Forall_inv G) as (G0 & _).
      unfold eof in X. lia.
    + pose proof (span_len pr cs). fold rest in H. lia.
  - destruct (peek_spec i Hi _ _ _ _ _ Hv2 Ha2) as (l3 & E3 & Hv3).
    eapply fail with (l := l3) (e := UnexpectedCharacter (head_rune rest)); [|exact Hv3| |lia].
    { simpl. unfold lex_identifier. fold pr. rewrite E. unfold at_terminator. rewrite E2, Eterm.
      simpl negb. cbv iota. rewrite E3. reflexivity. }
    destruct rest as [|c' rest'].
    + exfalso. simpl in Eterm. vm_compute in Eterm. discriminate.
    + subst t. rewrite Hcs. rewrite !runes_app. simpl runes. simpl head_rune.
      simpl in Hnn.
      apply (err_word u (fst c) (runes w) (fst c') (runes rest')); auto.
      intros X. assert (Y : false = true) by (apply Hterm; simpl; auto). discriminate.
Qed.

(** The loop of lexString. *)
Lemma string_loop_spec : forall fuel l s p ts cs,
  view l i s p ts -> ahead i p cs -> (length i - p < fuel)%nat ->
  exists b rest, cs = b ++ rest /\ string_body (runes b) /\
   ((exists l', string_loop fuel l = Some (inr l') /\
       view l' i s (p + length (bytes_of b)) ts /\
       (rest = [] \/ head_rune rest = 34)) \/
    (exists l' c rest', string_loop fuel l = Some (inl l') /\ rest = c :: rest' /\ fst c = 92 /\
       view l' i s (p + length (bytes_of (b ++ [c]))) ts /\
       not_next (fun r => In r (ch """" :: text "rn\")) (runes rest'))).
Proof.
  induction fuel as [|f IH]; intros l s p ts cs Hv Ha Hf; [lia|].
  simpl string_loop. destruct (peek_spec i Hi _ _ _ _ _ Hv Ha) as (l1 & E1 & Hv1). rewrite E1.
  destruct cs as [|c cs].
  { exists [], []. split; auto. split; [constructor|]. left. simpl. eexists. split; [reflexivity|].
    split; auto. rewrite Nat.add_0_r. auto. }
  pose proof (ahead_good i Hi _ _ Ha) as Hg. inversion Hg as [|? ? Hgc Hgcs]; subst.
  simpl head_rune. rewrite (good_not_eof _ Hgc). simpl orb.
  destruct (Z.eqb_spec (fst c) 34) as [E34|N34].
  { exists [], (c :: cs). split; auto. split; [constructor|]. left. eexists. split; [reflexivity|].
    split; auto. simpl. rewrite Nat.add_0_r. auto. }
  destruct (ahead_cons _ _ _ _ Hi Ha) as (Hlt & _ & Ha' & _).
  destruct (next_spec i Hi _ _ _ _ _ Hv1 Ha) as (l2 & E2 & Hv2).
  assert (Hcpos : (0 < length (snd c))%nat).
  { destruct Hgc as (_ & Hne & _). destruct (snd c); [congruence|simpl; lia]. }
  destruct (Z.eqb_spec (fst c) 92) as [E92|N92].
  - rewrite E2. destruct (peek_spec i Hi _ _ _ _ _ Hv2 Ha') as (l3 & E3 & Hv3). rewrite E3.
    destruct (is_escape (head_rune cs)) eqn:Eesc; simpl negb; cbv iota.
    + destruct cs as [|c2 cs2]; [discriminate Eesc|].
      destruct (ahead_cons _ _ _ _ Hi Ha') as (Hlt2 & _ & Ha2 & _).
      destruct (next_spec i Hi _ _ _ _ _ Hv3 Ha') as (l4 & E4 & Hv4). rewrite E4.
      inversion Hgcs as [|? ? Hgc2 _]; subst.
      destruct (IH _ _ _ _ _ Hv4 Ha2) as (b & rest & Ecs & Hb & Hcase).
      { lia. }
      exists (c :: c2 :: b), rest. split; [simpl; congruence|]. split.
      { simpl. rewrite E92. apply (body_escape (fst c2)); auto. apply is_escape_spec; auto. }
      assert (Hadd : forall x, (p + length (snd c) + length (snd c2) + length (bytes_of x))%nat
                    = (p + length (bytes_of (c :: c2 :: x)))%nat).
      { intros. unfold bytes_of. simpl. rewrite !app_length. lia. }
      destruct Hcase as [(l' & Hl & Hv' & Hr)|(l' & c' & rest' & Hl & Hr & Hc & Hv' & Hnn)].
      * left. exists l'. split; auto. split; auto. rewrite <- Hadd. auto.
      * right. exists l', c', rest'. repeat split; auto; try apply Hv'.
        rewrite (v_pos _ _ _ _ _ Hv'). apply (Hadd (b ++ [c'])).
    + exists [], (c :: cs). split; auto. split; [constructor|]. right.
      exists l3, c, cs. split; [reflexivity|]. split; auto. split; auto. split.
      * simpl app. unfold bytes_of. simpl. rewrite app_nil_r. auto.
      * destruct cs as [|c2 cs2]; simpl; auto. intros X. apply (is_escape_spec (fst c2)) in X.
        simpl in Eesc. congruence.
  - rewrite E2. destruct (IH _ _ _ _ _ Hv2 Ha') as (b & rest & Ecs & Hb & Hcase); [lia|].
    exists (c :: b), rest. split; [simpl; congruence|]. split.
    { simpl. apply body_char; auto. }
    assert (Hadd : forall x, (p + length (snd c) + length (bytes_of x))%nat
                  = (p + length (bytes_of (c :: x)))%nat).
    { intros. unfold bytes_of. simpl. rewrite !app_length. lia. }
    destruct Hcase as [(l' & Hl & Hv' & Hr)|(l' & c' & rest' & Hl & Hr & Hc & Hv' & Hnn)].
    + left. exists l'. split; auto. split; auto. rewrite <- Hadd. auto.
    + right. exists l', c', rest'. repeat split; auto; try apply Hv'.
      rewrite (v_pos _ _ _ _ _ Hv'). apply (Hadd (b ++ [c'])).
Qed.

Lemma string_result n fuel l s ts t cs :
  shorter n -> (length (t ++ cs) <= n)%nat -> mid l s ts t cs ->
  runes t = [ch """"] -> (2 * length cs + 1 < fuel)%nat ->
  result fuel LString l s ts (t ++ cs).
Proof.
  intros Hn Hlen (Hv & Ha & Ht) Hq Hf. destruct fuel as [|f]; [lia|].
  destruct (ahead_app _ _ _ _ Hi Ha) as [Ha1 _].
  assert (Hfuel : loop_fuel l = S (length i)) by (eapply view_fuel; eauto).
  destruct (string_loop_spec (loop_fuel l) l s _ ts cs Hv Ha1) as (b & rest & Ecs & Hb & Hcase).
  { rewrite Hfuel. lia. }
  assert (Hadd : forall x, (s + length (bytes_of t) + length (bytes_of x))%nat
                  = (s + length (bytes_of (t ++ x)))%nat).
  { intros. unfold bytes_of. rewrite map_app, concat_app, app_length. rewrite Nat.add_assoc. reflexivity. } 
  destruct Hcase as [(l' & Hl & Hv' & Hr)|(l' & c' & rest' & Hl & Hr & Hc & Hv' & Hnn)].
  - rewrite Hadd in Hv'. subst cs. rewrite app_assoc in Ha.
    destruct (ahead_app _ _ _ _ Hi Ha) as [Ha2 _].
    destruct (next_spec i Hi _ _ _ _ _ Hv' Ha2) as (l2 & E2 & Hv2).
    destruct rest as [|c rest].
    + eapply fail with (e := UnclosedString) (l := l2); [|exact Hv2| |lia].
      { simpl. unfold lex_string. rewrite Hl, E2. reflexivity. }
      rewrite app_nil_r, runes_app, Hq. simpl. constructor; auto.
    + destruct Hr as [Hr|Hr]; [discriminate|]. simpl in Hr.
      eapply result_step.
      { simpl. unfold lex_string. rewrite Hl, E2. simpl. rewrite Hr. reflexivity. }
      replace (t ++ b ++ c :: rest) with ((t ++ b ++ [c]) ++ rest) in * by (rewrite <- !app_assoc; reflexivity).
      replace ((t ++ b) ++ c :: rest) with ((t ++ b ++ [c]) ++ rest) in Ha by (rewrite <- !app_assoc; reflexivity).
      eapply finish with (n := n); eauto.
      * apply app_nonnil; auto.
      * discriminate.
      * simpl in Hv2. rewrite app_assoc.
        replace (bytes_of ((t ++ b) ++ [c])) with (bytes_of (t ++ b) ++ snd c).
        2:{ unfold bytes_of. rewrite (map_app snd (t ++ b)), concat_app. simpl. rewrite app_nil_r. reflexivity. }
        rewrite app_length, Nat.add_assoc. auto.
      * rewrite !runes_app, Hq. simpl. rewrite Hr. constructor; auto.
      * rewrite app_length in Hf. simpl in Hf. lia.
  - subst cs rest. rewrite Hadd in Hv'.
    eapply fail with (e := UnknownEscape) (l := l'); [|exact Hv'| |lia].
    { simpl. unfold lex_string. rewrite Hl. reflexivity. }
    rewrite !runes_app, Hq. simpl. rewrite Hc.
    apply (err_escape u (runes b) (runes rest')); auto.
Qed.

Lemma bytes_of_snoc t c : bytes_of (t ++ [c]) = bytes_of t ++ snd c.
Proof. unfold bytes_of. rewrite map_app, concat_app. simpl. rewrite app_nil_r. reflexivity. Qed.

Lemma mid_snoc l s ts t c cs l' :
  mid l s ts t (c :: cs) -> view l' i s (s + length (bytes_of t) + length (snd c)) ts ->
  mid l' s ts (t ++ [c]) cs.
Proof.
  intros (_ & Ha & Ht) Hv. split; [|split].
  - rewrite bytes_of_snoc, app_length, Nat.add_assoc. auto.
  - rewrite <- app_assoc. auto.
  - apply app_nonnil; auto.
Qed.

Lemma mid_view l l' s ts t cs :
  mid l s ts t cs -> view l' i s (s + length (bytes_of t)) ts -> mid l' s ts t cs.
Proof. intros (_ & Ha & Ht) Hv. split; auto. Qed.

Lemma hex_result n fuel l s ts t cs :
  shorter n -> (length (t ++ cs) <= n)%nat -> mid l s ts t cs ->
  runes t = [ch "0"] -> (2 * length cs + 1 < fuel)%nat ->
  result fuel LHexOrDec l s ts (t ++ cs).
Proof.
  intros Hn Hlen Hm Hq Hf. pose proof Hm as (Hv & Ha & Ht).
  destruct (ahead_app _ _ _ _ Hi Ha) as [Ha1 _].
  destruct (peek_spec i Hi _ _ _ _ _ Hv Ha1) as (l1 & E1 & Hv1).
  destruct (Z.eqb_spec (head_rune cs) 120) as [Ex|Nx].
  - destruct cs as [|c cs]; [discriminate Ex|]. simpl in Ex.
    destruct (next_spec i Hi _ _ _ _ _ Hv1 Ha1) as (l2 & E2 & Hv2).
    pose proof (mid_snoc _ _ _ _ _ _ _ Hm Hv2) as Hm2.
    destruct (ahead_cons _ _ _ _ Hi Ha1) as (_ & _ & Ha2 & _).
    destruct (peek_spec i Hi _ _ _ _ _ Hv2 Ha2) as (l3 & E3 & Hv3).
    assert (Hr : runes (t ++ [c]) = text "0x") by (rewrite runes_app, Hq; simpl; rewrite Ex; reflexivity).
    replace (t ++ c :: cs) with ((t ++ [c]) ++ cs) in * by (rewrite <- app_assoc; reflexivity).
    destruct (is_hexadecimal u (head_rune cs)) eqn:Eh.
    + eapply integer_result with (n := n) (pr := is_hexadecimal u) (l := l3); eauto.
      * pose proof Hm2 as (Hva & Hvb & Hvc). split; [|split]; auto.
        destruct Hva as [V1 V2 V3 V4]. destruct Hv3 as [W1 W2 W3 W4].
        destruct Hv2 as [X1 X2 X3 X4]. constructor; auto. rewrite W3, <- X3. auto.
      * intros t' rest -> Hall Hnn. rewrite runes_app, Hr.
        destruct t' as [|h t'].
        { exfalso. destruct rest as [|c2 rest].
          - discriminate Eh.
          - simpl in Hnn, Eh. apply Hnn. auto. }
        simpl runes. inversion Hall; subst. apply tok_hex.
        -- apply is_hexadecimal_spec. auto.
        -- apply runes_forall. eapply Forall_impl; [|eassumption]. simpl. intros ? ?. apply is_hexadecimal_spec; auto.
        -- destruct rest; simpl in *; auto. rewrite <- is_hexadecimal_spec. auto.
      * simpl in Hf. lia.
      * simpl. unfold lex_hex_or_dec. rewrite E1. simpl head_rune. rewrite Ex. simpl Z.eqb. cbv iota.
        rewrite E2, E3, Eh. reflexivity.
    + eapply fail with (e := HexWithoutDigits) (l := l3); [|exact Hv3| |lia].
      { simpl. unfold lex_hex_or_dec. rewrite E1. simpl head_rune. rewrite Ex. simpl Z.eqb. cbv iota.
        rewrite E2, E3, Eh. reflexivity. }
      rewrite runes_app, Hr. apply err_hex. destruct cs; simpl; auto.
      intros X. apply is_hexadecimal_spec in X. simpl in Eh. congruence.
  - eapply integer_result with (n := n) (pr := is_numeric u) (l := l1); eauto.
    * eapply mid_view; eauto.
    * intros t' rest -> Hall Hnn. rewrite runes_app, Hq. simpl app.
      apply (tok_zero u (runes t')).
      -- apply runes_forall. eapply Forall_impl; [|eassumption]. simpl. auto.
      -- destruct rest; simpl in *; auto.
      -- rewrite <- runes_app. destruct (t' ++ rest); simpl in *; auto.
    * simpl. unfold lex_hex_or_dec. rewrite E1.
      destruct (Z.eqb_spec (head_rune cs) 120); [congruence|]. reflexivity.
Qed.

Lemma dec_result n fuel l s ts t cs :
  shorter n -> (length (t ++ cs) <= n)%nat -> mid l s ts t cs ->
  (exists r, runes t = [r] /\ 49 <= r <= 57) -> (2 * length cs + 1 < fuel)%nat ->
  result fuel LDec l s ts (t ++ cs).
Proof.
  intros Hn Hlen Hm (r & Hq & Hrange) Hf.
  eapply integer_result with (n := n) (pr := is_numeric u) (l := l); eauto.
  intros t' rest -> Hall Hnn. rewrite runes_app, Hq. simpl app. apply tok_decimal.
  - assert (X : r = 49 \/ r = 50 \/ r = 51 \/ r = 52 \/ r = 53 \/ r = 54 \/ r = 55 \/ r = 56 \/ r = 57) by lia.
    cbn. intuition.
  - apply runes_forall. eapply Forall_impl; [|eassumption]. simpl. auto.
  - destruct rest; simpl in *; auto.
Qed.

(* ------------------------------------------------------------ lexText and run *)

Lemma two_char_result n f l s ts c cs k2 r1 :
  shorter n -> (length (c :: cs) <= n)%nat ->
  mid l s ts [c] cs -> fst c = r1 ->
  forall c2 cs2 l0, cs = c2 :: cs2 ->
  two_char r1 (fst c2) = Some k2 -> (forall e, k2 <> KErr e) ->
  step u LText l0 = Some (emit k2 (snd (next (snd (peek l)))), Some LText) ->
  (2 * length cs < f)%nat ->
  result (S f) LText l0 s ts (c :: cs).
Proof.
  intros Hn Hlen Hm Hr1 c2 cs2 l0 -> Htwo Hne Hst Hf.
  pose proof Hm as (Hv & Ha & Ht).
  destruct (ahead_app _ _ [c] _ Hi Ha) as [Ha1 _].
  destruct (peek_spec i Hi _ _ _ _ _ Hv Ha1) as (l1 & E1 & Hv1).
  destruct (next_spec i Hi _ _ _ _ _ Hv1 Ha1) as (l2 & E2 & Hv2).
  rewrite E1 in Hst. simpl snd in Hst. rewrite E2 in Hst. simpl snd in Hst.
  eapply result_step; [exact Hst|].
  change (c :: c2 :: cs2) with ([c; c2] ++ cs2).
  eapply finish with (n := n); eauto.
  - discriminate.
  - replace (s + length (bytes_of [c; c2]))%nat with (s + length (bytes_of [c]) + length (snd c2))%nat; auto.
    unfold bytes_of. simpl. rewrite !app_nil_r, !app_length. lia.
  - simpl. rewrite Hr1. apply tok_two; auto.
  - simpl in Hf. lia.
Qed.

Lemma one_char_result n f l s ts c cs k l0 :
  shorter n -> (length (c :: cs) <= n)%nat ->
  mid l s ts [c] cs ->
  assoc (fst c) one_char_tokens = Some k -> (forall e, k <> KErr e) ->
  not_next (fun r2 => two_char (fst c) r2 <> None \/ (fst c = ch "/" /\ r2 = ch "/")) (runes cs) ->
  step u LText l0 = Some (emit k l, Some LText) ->
  (2 * length cs < f)%nat ->
  result (S f) LText l0 s ts (c :: cs).
Proof.
  intros Hn Hlen Hm Hone Hne Hnn Hst Hf.
  pose proof Hm as (Hv & Ha & Ht).
  eapply result_step; [exact Hst|].
  change (c :: cs) with ([c] ++ cs).
  eapply finish with (n := n); eauto.
  simpl. apply tok_one; auto.
Qed.

Lemma run_text : forall n, shorter n.
Proof.
  induction n as [|n IH]; intros cs l p ts fuel Hlen Hv Ha Hf; [lia|].
  destruct fuel as [|f]; [lia|].
  destruct (next_spec i Hi _ _ _ _ _ Hv Ha) as (l1 & E1 & Hv1).
  destruct cs as [|c cs].
  { (* end of input *)
    simpl in Hv1. rewrite Nat.add_0_r in Hv1.
    pose proof (emit_spec i KEOF l1 _ _ _ Hv1) as Hve.
    exists (emit KEOF l1), [Token KEOF [] (lp i p) (ln i p)]. rewrite slice_nil in Hve.
    split; [|split; [destruct Hve; auto|split]].
    - simpl run. unfold lex_text. rewrite E1. reflexivity.
    - constructor.
    - simpl. auto. }
  assert (Hm : mid l1 p ts [c] cs).
  { split; [|split; [exact Ha|discriminate]]. simpl in Hv1.
    unfold bytes_of. simpl. rewrite app_nil_r. auto. }
  assert (Hlen' : (length (c :: cs) <= S n)%nat) by lia.
  assert (Hsh : shorter (length (c :: cs))).
  { intros cs' l' p' ts' fuel' H'. apply IH. simpl in *. lia. }
  assert (Hlc : (length (c :: cs) <= length (c :: cs))%nat) by lia.
  assert (Hf' : (2 * length cs + 1 < f)%nat) by (simpl in Hf; lia).
  assert (Hf2 : (2 * length cs < f)%nat) by lia.
  pose proof (ahead_good i Hi _ _ Ha) as Hg. inversion Hg as [|? ? Hgc Hgcs]; subst.
  pose proof Hgc as (Hpos & _).
  destruct (ahead_app _ _ [c] _ Hi Ha) as [Ha1 _].
  pose proof Hm as (Hvm & _ & _).
  destruct (peek_spec i Hi _ _ _ _ _ Hvm Ha1) as (l2 & E2 & Hv2).
  assert (Hm2 : mid l2 p ts [c] cs) by (eapply mid_view; eauto).
  assert (Hsnd : snd (peek l1) = l2) by (rewrite E2; reflexivity).
  assert (Hst : step u LText l = lex_text u l) by reflexivity.
  unfold lex_text in Hst. rewrite E1 in Hst. simpl head_rune in Hst. rewrite E2 in Hst.
  (* walk down the switch *)
  Ltac simple_one c cs E Hst Hsh Hlc Hm Hf2 :=
    refine (one_char_result _ _ _ _ _ c cs _ _ Hsh Hlc Hm _ _ _ Hst Hf2);
    [ rewrite E; reflexivity
    | discriminate
    | destruct cs; simpl; auto; rewrite E;
      intros [X|[X _]]; [apply X; reflexivity|discriminate X] ].
  destruct (Z.eqb_spec (fst c) 32) as [E|N32].
  { eapply result_step; [exact Hst|]. eapply (space_result (length (c :: cs)) f l1 p ts [c] cs); eauto. }
  destruct (Z.eqb_spec (fst c) 40) as [E|N40]; [simple_one c cs E Hst Hsh Hlc Hm Hf2|].
  destruct (Z.eqb_spec (fst c) 41) as [E|N41]; [simple_one c cs E Hst Hsh Hlc Hm Hf2|].
  destruct (Z.eqb_spec (fst c) 123) as [E|N123]; [simple_one c cs E Hst Hsh Hlc Hm Hf2|].
  destruct (Z.eqb_spec (fst c) 125) as [E|N125]; [simple_one c cs E Hst Hsh Hlc Hm Hf2|].
  destruct (Z.eqb_spec (fst c) 91) as [E|N91]; [simple_one c cs E Hst Hsh Hlc Hm Hf2|].
  destruct (Z.eqb_spec (fst c) 93) as [E|N93]; [simple_one c cs E Hst Hsh Hlc Hm Hf2|].
  destruct (Z.eqb_spec (fst c) 171) as [E|N171]; [simple_one c cs E Hst Hsh Hlc Hm Hf2|].
  destruct (Z.eqb_spec (fst c) 187) as [E|N187]; [simple_one c cs E Hst Hsh Hlc Hm Hf2|].
  destruct (Z.eqb_spec (fst c) 35) as [E|N35]; [simple_one c cs E Hst Hsh Hlc Hm Hf2|].
  destruct (Z.eqb_spec (fst c) 63) as [E|N63]; [simple_one c cs E Hst Hsh Hlc Hm Hf2|].
  destruct (Z.eqb_spec (fst c) 44) as [E|N44]; [simple_one c cs E Hst Hsh Hlc Hm Hf2|].
  destruct (Z.eqb_spec (fst c) 58) as [E|N58].
  { destruct (Z.eqb_spec (head_rune cs) 61) as [E'|N'].
    - destruct cs as [|c2 cs2]; [discriminate E'|]. simpl in E'.
      rewrite <- Hsnd in Hst.
      refine (two_char_result _ _ _ _ _ c _ _ (fst c) Hsh Hlc Hm eq_refl c2 cs2 l eq_refl _ _ Hst Hf2); [rewrite E, E'; reflexivity|discriminate].
    - refine (one_char_result _ _ _ _ _ c cs _ _ Hsh Hlc Hm2 _ _ _ Hst Hf2); [rewrite E; reflexivity|discriminate|].
      destruct cs as [|c2 cs2]; simpl; auto. simpl in N'. rewrite E.
        intros [X|[X _]]; [|discriminate X]. apply X. unfold two_char. simpl. norm_ch.
        destruct (Z.eqb_spec (fst c2) 61); [contradiction|reflexivity]. }
  destruct (Z.eqb_spec (fst c) 43) as [E|N43]; [simple_one c cs E Hst Hsh Hlc Hm Hf2|].
  destruct (Z.eqb_spec (fst c) 45) as [E|N45]; [simple_one c cs E Hst Hsh Hlc Hm Hf2|].
  destruct (Z.eqb_spec (fst c) 42) as [E|N42]; [simple_one c cs E Hst Hsh Hlc Hm Hf2|].
  destruct (Z.eqb_spec (fst c) 126) as [E|N126]; [simple_one c cs E Hst Hsh Hlc Hm Hf2|].
  destruct (Z.eqb_spec (fst c) 94) as [E|N94]; [simple_one c cs E Hst Hsh Hlc Hm Hf2|].
  destruct (Z.eqb_spec (fst c) 124) as [E|N124]; [simple_one c cs E Hst Hsh Hlc Hm Hf2|].
  destruct (Z.eqb_spec (fst c) 38) as [E|N38]; [simple_one c cs E Hst Hsh Hlc Hm Hf2|].
  destruct (Z.eqb_spec (fst c) 62) as [E|N62].
  { destruct (Z.eqb_spec (head_rune cs) 62) as [E'|N'].
    { destruct cs as [|c2 cs2]; [discriminate E'|]. simpl in E'.
      rewrite <- Hsnd in Hst.
      refine (two_char_result _ _ _ _ _ c _ _ (fst c) Hsh Hlc Hm eq_refl c2 cs2 l eq_refl _ _ Hst Hf2); [rewrite E, E'; reflexivity|discriminate]. }
    destruct (Z.eqb_spec (head_rune cs) 61) as [E'|N''].
    { destruct cs as [|c2 cs2]; [discriminate E'|]. simpl in E'.
      rewrite <- Hsnd in Hst.
      refine (two_char_result _ _ _ _ _ c _ _ (fst c) Hsh Hlc Hm eq_refl c2 cs2 l eq_refl _ _ Hst Hf2); [rewrite E, E'; reflexivity|discriminate]. }
    refine (one_char_result _ _ _ _ _ c cs _ _ Hsh Hlc Hm2 _ _ _ Hst Hf2); [rewrite E; reflexivity|discriminate|].
    destruct cs as [|c2 cs2]; simpl; auto. simpl in N', N''. rewrite E.
      intros [X|[X _]]; [|discriminate X]. apply X. unfold two_char. simpl. norm_ch.
      destruct (Z.eqb_spec (fst c2) 62); [contradiction|].
      destruct (Z.eqb_spec (fst c2) 61); [contradiction|reflexivity]. }
  destruct (Z.eqb_spec (fst c) 60) as [E|N60].
  { destruct (Z.eqb_spec (head_rune cs) 60) as [E'|N'].
    { destruct cs as [|c2 cs2]; [discriminate E'|]. simpl in E'.
      rewrite <- Hsnd in Hst.
      refine (two_char_result _ _ _ _ _ c _ _ (fst c) Hsh Hlc Hm eq_refl c2 cs2 l eq_refl _ _ Hst Hf2); [rewrite E, E'; reflexivity|discriminate]. }
    destruct (Z.eqb_spec (head_rune cs) 61) as [E'|N''].
    { destruct cs as [|c2 cs2]; [discriminate E'|]. simpl in E'.
      rewrite <- Hsnd in Hst.
      refine (two_char_result _ _ _ _ _ c _ _ (fst c) Hsh Hlc Hm eq_refl c2 cs2 l eq_refl _ _ Hst Hf2); [rewrite E, E'; reflexivity|discriminate]. }
    refine (one_char_result _ _ _ _ _ c cs _ _ Hsh Hlc Hm2 _ _ _ Hst Hf2); [rewrite E; reflexivity|discriminate|].
    destruct cs as [|c2 cs2]; simpl; auto. simpl in N', N''. rewrite E.
      intros [X|[X _]]; [|discriminate X]. apply X. unfold two_char. simpl. norm_ch.
      destruct (Z.eqb_spec (fst c2) 60); [contradiction|].
      destruct (Z.eqb_spec (fst c2) 61); [contradiction|reflexivity]. }
  destruct (Z.eqb_spec (fst c) 46) as [E|N46].
  { destruct (Z.eqb_spec (head_rune cs) 46) as [E'|N'].
    - destruct cs as [|c2 cs2]; [discriminate E'|]. simpl in E'.
      rewrite <- Hsnd in Hst.
      refine (two_char_result _ _ _ _ _ c _ _ (fst c) Hsh Hlc Hm eq_refl c2 cs2 l eq_refl _ _ Hst Hf2); [rewrite E, E'; reflexivity|discriminate].
    - refine (one_char_result _ _ _ _ _ c cs _ _ Hsh Hlc Hm2 _ _ _ Hst Hf2); [rewrite E; reflexivity|discriminate|].
      destruct cs as [|c2 cs2]; simpl; auto. simpl in N'. rewrite E.
        intros [X|[X _]]; [|discriminate X]. apply X. unfold two_char. simpl. norm_ch.
        destruct (Z.eqb_spec (fst c2) 46); [contradiction|reflexivity]. }
  destruct (Z.eqb_spec (fst c) 34) as [E|N34].
  { eapply result_step; [exact Hst|].
    eapply (string_result (length (c :: cs)) f l1 p ts [c] cs); eauto. simpl. rewrite E. reflexivity. }
  destruct (Z.eqb_spec (fst c) 61) as [E|N61].
  { destruct (Z.eqb_spec (head_rune cs) 61) as [E'|N'].
    - destruct cs as [|c2 cs2]; [discriminate E'|]. simpl in E'.
      rewrite <- Hsnd in Hst.
      refine (two_char_result _ _ _ _ _ c _ _ (fst c) Hsh Hlc Hm eq_refl c2 cs2 l eq_refl _ _ Hst Hf2); [rewrite E, E'; reflexivity|discriminate].
    - refine (one_char_result _ _ _ _ _ c cs _ _ Hsh Hlc Hm2 _ _ _ Hst Hf2); [rewrite E; reflexivity|discriminate|].
      destruct cs as [|c2 cs2]; simpl; auto. simpl in N'. rewrite E.
        intros [X|[X _]]; [|discriminate X]. apply X. unfold two_char. simpl. norm_ch.
        destruct (Z.eqb_spec (fst c2) 61); [contradiction|reflexivity]. }
  destruct (Z.eqb_spec (fst c) 47) as [E|N47].
  { destruct (Z.eqb_spec (head_rune cs) 47) as [E'|N'].
    - destruct cs as [|c2 cs2]; [discriminate E'|]. simpl in E'.
      destruct (next_spec i Hi _ _ _ _ _ Hv2 Ha1) as (l3 & E3 & Hv3). rewrite E3 in Hst.
      eapply result_step; [exact Hst|].
      change (c :: c2 :: cs2) with ([c; c2] ++ cs2) in *.
      eapply (comment_result (length (c :: c2 :: cs2)) f l3 p ts [c; c2] cs2); eauto.
      + apply (mid_snoc l2 p ts [c] c2 cs2); auto.
      + simpl. rewrite E, E'. reflexivity.
      + simpl in Hf'. lia.
    - refine (one_char_result _ _ _ _ _ c cs _ _ Hsh Hlc Hm2 _ _ _ Hst Hf2); [rewrite E; reflexivity|discriminate|].
      destruct cs as [|c2 cs2]; simpl; auto. simpl in N'. rewrite E.
        intros [X|[_ X]]; [apply X; reflexivity|]. contradiction. }
  destruct (Z.eqb_spec (fst c) 48) as [E|N48].
  { eapply result_step; [exact Hst|].
    eapply (hex_result (length (c :: cs)) f l1 p ts [c] cs); eauto. simpl. rewrite E. reflexivity. }
  destruct ((49 <=? fst c) && (fst c <=? 57)) eqn:Edig.
  { eapply result_step; [exact Hst|].
    eapply (dec_result (length (c :: cs)) f l1 p ts [c] cs); eauto.
    exists (fst c). split; auto. lia. }
  destruct (is_alphabetic u (fst c)) eqn:Ealpha.
  { eapply result_step; [exact Hst|].
    eapply (identifier_result (length (c :: cs)) f l1 p ts [c] cs); eauto.
    exists c. split; auto. apply is_alphabetic_spec. auto. }
  destruct (is_end_of_line (fst c)) eqn:Eeol.
  { eapply result_step; [exact Hst|].
    change (c :: cs) with ([c] ++ cs).
    eapply (finish _ _ _ _ _ _ _ (length (c :: cs))); eauto.
    - discriminate.
    - discriminate.
    - simpl. apply tok_eol. apply is_end_of_line_spec. auto. }
  rewrite (good_not_eof _ Hgc) in Hst.
  eapply fail; [exact Hst|exact Hv1| |lia].
  simpl. apply err_char.
  - unfold one_char_tokens. simpl. norm_ch.
    repeat match goal with |- context [fst c =? ?k] => destruct (Z.eqb_spec (fst c) k); [lia|] end. reflexivity.
  - auto.
  - auto.
  - intros X. apply is_end_of_line_spec in X. congruence.
  - cbn. lia.
  - intros X. apply is_alphabetic_spec in X. congruence.
Qed.
End Run.
