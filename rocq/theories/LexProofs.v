(** Proofs about the lexer model. *)
From Coq Require Import Ascii String ZArith List Bool Lia.
From Verif Require Import LexModel LexSpec.
Import ListNotations.
Open Scope Z_scope.
Ltac Zify.zify_post_hook ::= Z.div_mod_to_equations.

(* ---------------------------------------------------------------- UTF-8 *)

Lemma decode_width s r w :
  s <> [] -> decode_rune s = (r, w) -> (1 <= w <= length s)%nat.
Proof.
  intros Hne H. destruct s as [|b0 t0]; [congruence|]. clear Hne.
  unfold decode_rune in H.
  repeat match type of H with
  | context [if ?c then _ else _] => destruct c eqn:?
  | context [match ?c with _ => _ end] => destruct c eqn:?
  end; inversion H; subst; simpl in *; try lia.
Qed.

Lemma decode_rune_range s r w :
  Forall is_byte s -> s <> [] -> decode_rune s = (r, w) ->
  0 <= r /\ (r < 128 -> w = 1%nat /\ hd 0 s = r) /\ (hd 0 s < 128 -> r = hd 0 s /\ w = 1%nat).
Proof.
  intros Hb Hne H. destruct s as [|b0 t0]; [congruence|]. clear Hne.
  inversion Hb as [|? ? Hb0 Ht]; subst. unfold is_byte in Hb0. simpl hd.
  cbv [decode_rune] in H.
  destruct (b0 <? 128) eqn:E0.
  { inversion H; subst. lia. }
  assert (Herr : forall w', (rune_error, 1%nat) = (r, w') -> w' = w ->
     0 <= r /\ (r < 128 -> w = 1%nat /\ b0 = r) /\ (b0 < 128 -> r = b0 /\ w = 1%nat)).
  { intros w' E Ew. inversion E; subst. unfold rune_error. lia. }
  unfold utf8_first in H.
  assert (Hge : forall x, x = r -> 128 <= x -> b0 >= 128 ->
     0 <= r /\ (r < 128 -> w = 1%nat /\ b0 = r) /\ (b0 < 128 -> r = b0 /\ w = 1%nat)).
  { intros. subst. split; [lia|split; intros; lia]. }
  apply Z.ltb_ge in E0.
  unfold cont_byte in H.
  destruct t0 as [|b1 t1].
  { repeat match type of H with context [if ?c then _ else _] => destruct c end;
    apply (Herr _ H eq_refl). }
  inversion Ht as [|? ? Hb1 Ht1]; subst. unfold is_byte in Hb1.
  destruct t1 as [|b2 t2].
  { repeat match type of H with context [if ?c then _ else _] => destruct c eqn:? end;
    try apply (Herr _ H eq_refl); try (inversion H; subst); try discriminate;
    (eapply Hge; [reflexivity| |lia]); lia. }
  inversion Ht1 as [|? ? Hb2 Ht2]; subst. unfold is_byte in Hb2.
  destruct t2 as [|b3 t3].
  { repeat match type of H with context [if ?c then _ else _] => destruct c eqn:? end;
    try apply (Herr _ H eq_refl); try (inversion H; subst); try discriminate;
    (eapply Hge; [reflexivity| |lia]); lia. }
  inversion Ht2 as [|? ? Hb3 Ht3]; subst. unfold is_byte in Hb3.
  repeat match type of H with context [if ?c then _ else _] => destruct c eqn:? end;
    try apply (Herr _ H eq_refl); try (inversion H; subst); try discriminate;
    (eapply Hge; [reflexivity| |lia]); lia.
Qed.

(** Decoding looks only at the bytes it consumes, or at a too short prefix. *)
Lemma chars_total s : exists cs, chars_of s cs.
Proof.
  remember (length s) as n eqn:Hn.
  revert s Hn. induction n as [n IH] using lt_wf_ind; intros s Hn.
  destruct s as [|b t].
  - exists []. constructor.
  - destruct (decode_rune (b :: t)) as [r w] eqn:E.
    assert (Hw : (1 <= w <= length (b :: t))%nat) by (eapply decode_width; [|exact E]; discriminate).
    assert (X : exists cs, chars_of (skipn w (b :: t)) cs).
    { eapply IH; [|reflexivity]. rewrite skipn_length. subst. lia. }
    destruct X as [cs Hcs].
    exists ((r, firstn w (b :: t)) :: cs). constructor; auto. discriminate.
Qed.

Lemma chars_functional s cs1 : chars_of s cs1 -> forall cs2, chars_of s cs2 -> cs1 = cs2.
Proof.
  induction 1 as [|s r w cs Hne Hd Hcs IH]; intros cs2 H2; inversion H2; subst; try congruence.
  match goal with E : decode_rune s = _ |- _ => rewrite Hd in E; inversion E; subst end.
  f_equal. auto.
Qed.

Lemma chars_bytes s cs : chars_of s cs -> bytes_of cs = s.
Proof.
  induction 1 as [|s r w cs Hne Hd Hcs IH]; auto.
  unfold bytes_of in *. simpl. rewrite IH. apply firstn_skipn.
Qed.

Lemma skipn_forall {A} (P : A -> Prop) n l : Forall P l -> Forall P (skipn n l).
Proof. revert l; induction n; intros l H; simpl; auto. destruct l; auto. inversion H; auto. Qed.

(** Characters of byte strings: non-negative runes, non-empty, ASCII written as itself. *)
Definition good_char (c : uchar) : Prop :=
  0 <= fst c /\ snd c <> [] /\ (fst c < 128 -> snd c = [fst c]) /\
  (forall b, 0 <= b < 128 -> snd c = [b] -> fst c = b) /\
  (forall b t, snd c = b :: t -> b < 128 -> t = []).

Lemma chars_good s cs : Forall is_byte s -> chars_of s cs -> Forall good_char cs.
Proof.
  intros Hb H. induction H as [|s r w cs Hne Hd Hcs IH]; constructor.
  - destruct (decode_rune_range _ _ _ Hb Hne Hd) as (H0 & H1 & H2).
    assert (Hw := decode_width _ _ _ Hne Hd).
    destruct s as [|b t]; [congruence|]. simpl hd in *.
    destruct w as [|w]; [lia|].
    repeat split; simpl.
    + auto.
    + discriminate.
    + intros Hr. destruct (H1 Hr) as [Ew Eb]. inversion Ew; subst. reflexivity.
    + intros b' Hb' E. inversion E; subst. apply H2. lia.
    + intros b' t' E Hlt. inversion E; subst. destruct (H2 Hlt) as [_ Ew]. inversion Ew; reflexivity.
  - apply IH. apply skipn_forall; auto.
Qed.

(* ---------------------------------------------------------------- lexer views *)

(** The observable part of the lexer state (everything but [width]). *)
Record view (l : lexer) (i : list byte) (s p : nat) (ts : list token) : Prop := View {
  v_input : lx_input l = i;
  v_start : lx_start l = s;
  v_pos : lx_pos l = p;
  v_tokens : lx_tokens l = ts
}.

(** The characters still to be read at offset [p]. *)
Record ahead (i : list byte) (p : nat) (cs : list uchar) : Prop := Ahead {
  a_chars : chars_of (skipn p i) cs;
  a_le : (p <= length i)%nat
}.

Lemma skipn_skipn' {A} (a b : nat) (l : list A) : skipn a (skipn b l) = skipn (b + a) l.
Proof. revert l; induction b; intros l; simpl; auto. destruct l; simpl; auto using skipn_nil. Qed.

Lemma ahead_cons i p c cs : Forall is_byte i -> ahead i p (c :: cs) ->
  (p < length i)%nat /\
  (exists w, decode_rune (skipn p i) = (fst c, w) /\ w = length (snd c)) /\
  ahead i (p + length (snd c)) cs /\
  slice i p (p + length (snd c)) = snd c.
Proof.
  intros Hb [Hc Hl]. inversion Hc as [|s0 r w cs0 Hne Hd Hcs E1 E2]; subst. simpl fst; simpl snd.
  assert (Hw := decode_width _ _ _ Hne Hd).
  assert (Hlen : length (firstn w (skipn p i)) = w) by (rewrite firstn_length; lia).
  rewrite Hlen.
  assert ((p < length i)%nat).
  { rewrite skipn_length in Hw. lia. }
  split; [auto|]. split; [exists w; auto|]. split.
  - constructor.
    + rewrite <- skipn_skipn'. auto.
    + rewrite skipn_length in Hw. lia.
  - unfold slice. f_equal. lia.
Qed.

Lemma ahead_nil i p : ahead i p [] -> p = length i.
Proof.
  intros [Hc Hl]. inversion Hc as [E|].
  assert (Hl0 : length (skipn p i) = 0%nat) by (rewrite <- E; reflexivity).
  rewrite skipn_length in Hl0. lia.
Qed.

Lemma slice_app i a b c : (a <= b <= c)%nat -> (c <= length i)%nat ->
  slice i a c = slice i a b ++ slice i b c.
Proof.
  intros H Hc. unfold slice.
  replace (c - a)%nat with ((b - a) + (c - b))%nat by lia.
  replace (skipn b i) with (skipn (b - a) (skipn a i)) by (rewrite skipn_skipn'; f_equal; lia).
  generalize (skipn a i) as l; intros l.
  generalize (b - a)%nat as n, (c - b)%nat as m. intros n; revert l.
  induction n as [|n IHn]; intros l m; simpl; auto.
  destruct l; simpl; [rewrite !firstn_nil; auto|]. f_equal. apply IHn.
Qed.

Lemma slice_nil i p : slice i p p = [].
Proof. unfold slice. rewrite Nat.sub_diag. reflexivity. Qed.

Lemma ahead_app i p t rest : Forall is_byte i -> ahead i p (t ++ rest) ->
  ahead i (p + length (bytes_of t)) rest /\
  slice i p (p + length (bytes_of t)) = bytes_of t.
Proof.
  intros Hb. revert p. induction t as [|c t IH]; intros p H; simpl.
  - unfold bytes_of; simpl. rewrite Nat.add_0_r. split; auto. apply slice_nil.
  - destruct (ahead_cons _ _ _ _ Hb H) as (Hlt & _ & Ha & Hs).
    destruct (IH _ Ha) as (Ha' & Hs').
    unfold bytes_of in *. simpl. rewrite app_length, Nat.add_assoc. split; auto.
    rewrite (slice_app i p (p + length (snd c))).
    + rewrite Hs, Hs'. reflexivity.
    + lia.
    + destruct Ha'; auto.
Qed.

Definition head_rune (cs : list uchar) : rune :=
  match cs with [] => eof | c :: _ => fst c end.

Section Views.
Variable i : list byte.
Hypothesis Hi : Forall is_byte i.

Lemma next_spec l s p ts cs : view l i s p ts -> ahead i p cs ->
  exists l', next l = (head_rune cs, l') /\
    view l' i s (p + length (match cs with [] => [] | c :: _ => snd c end)) ts.
Proof.
  intros [E1 E2 E3 E4] Ha. unfold next. rewrite E1, E2, E3, E4.
  destruct cs as [|c cs].
  - rewrite (ahead_nil _ _ Ha), Nat.leb_refl. eexists; split; [reflexivity|].
    constructor; simpl; auto; lia.
  - destruct (ahead_cons _ _ _ _ Hi Ha) as (Hlt & (w & Hd & Hw) & _ & _).
    destruct (Nat.leb_spec (length i) p); [lia|]. rewrite Hd, Hw.
    eexists; split; [reflexivity|]. constructor; simpl; auto.
Qed.

Lemma peek_spec l s p ts cs : view l i s p ts -> ahead i p cs ->
  exists l', peek l = (head_rune cs, l') /\ view l' i s p ts.
Proof.
  intros [E1 E2 E3 E4] Ha. unfold peek.
  unfold next. rewrite E1, E2, E3, E4.
  destruct cs as [|c cs].
  - rewrite (ahead_nil _ _ Ha), Nat.leb_refl. eexists; split; [reflexivity|].
    constructor; simpl; auto; lia.
  - destruct (ahead_cons _ _ _ _ Hi Ha) as (Hlt & (w & Hd & Hw) & _ & _).
    destruct (Nat.leb_spec (length i) p); [lia|]. rewrite Hd.
    eexists; split; [reflexivity|]. constructor; simpl; auto. lia.
Qed.

(** Line and column computed by emit/errorf, as functions of the text. *)
Definition ln (s : nat) : nat := S (count_newlines (firstn s i)).
Definition lp (s : nat) : nat := line_pos (Lexer i 0 0 0 []) s.

Lemma emit_spec k l s p ts : view l i s p ts ->
  view (emit k l) i p p (Token k (slice i s p) (lp s) (ln s) :: ts).
Proof.
  intros [E1 E2 E3 E4]. unfold emit.
  constructor; simpl; auto. unfold line_pos, line_number. rewrite E1, E2, E3, E4. reflexivity.
Qed.

Lemma errorf_spec e l s p ts : view l i s p ts ->
  view (errorf e l) i s p (Token (KErr e) [] (lp p) (ln s) :: ts).
Proof.
  intros [E1 E2 E3 E4]. unfold errorf.
  constructor; simpl; auto. unfold line_pos, line_number. rewrite E1, E2, E3, E4. reflexivity.
Qed.

Lemma view_fuel l s p ts : view l i s p ts -> loop_fuel l = S (length i).
Proof. intros [E1 _ _ _]. unfold loop_fuel. rewrite E1. reflexivity. Qed.

(** Splitting the characters ahead at the first one that fails [p]. *)
Fixpoint span (p : rune -> bool) (cs : list uchar) : list uchar * list uchar :=
  match cs with
  | [] => ([], [])
  | c :: t => if p (fst c) then (c :: fst (span p t), snd (span p t)) else ([], cs)
  end.

Lemma span_app p cs : fst (span p cs) ++ snd (span p cs) = cs.
Proof. induction cs as [|c t IH]; simpl; auto. destruct (p (fst c)); simpl; congruence. Qed.

Lemma span_all p cs : Forall (fun c => p (fst c) = true) (fst (span p cs)).
Proof. induction cs as [|c t IH]; simpl; auto. destruct (p (fst c)) eqn:E; simpl; auto. Qed.

Lemma span_stop p cs : match snd (span p cs) with [] => True | c :: _ => p (fst c) = false end.
Proof. induction cs as [|c t IH]; simpl; auto. destruct (p (fst c)) eqn:E; simpl; auto. Qed.

Lemma ahead_good p cs : ahead i p cs -> Forall good_char cs.
Proof. intros [H _]. apply (chars_good (skipn p i)); auto. apply skipn_forall; auto. Qed.

Lemma good_not_eof c : good_char c -> (fst c =? eof) = false.
Proof. intros (H & _). unfold eof. lia. Qed.

Lemma accept_while_spec pr : forall fuel l s p ts cs,
  view l i s p ts -> ahead i p cs -> (length i - p < fuel)%nat ->
  exists l', accept_while fuel pr l = Some l' /\
    view l' i s (p + length (bytes_of (fst (span pr cs)))) ts.
Proof.
  induction fuel as [|f IH]; intros l s p ts cs Hv Ha Hf; [lia|].
  simpl. destruct (peek_spec _ _ _ _ _ Hv Ha) as (l1 & E1 & Hv1). rewrite E1.
  destruct cs as [|c cs]; simpl head_rune.
  - simpl. eexists; split; [reflexivity|]. simpl. rewrite Nat.add_0_r. auto.
  - rewrite good_not_eof by (pose proof (ahead_good _ _ Ha) as G; inversion G; auto).
    simpl negb. simpl. destruct (pr (fst c)) eqn:Ep; simpl.
    + destruct (next_spec _ _ _ _ _ Hv1 Ha) as (l2 & E2 & Hv2). rewrite E2.
      destruct (ahead_cons _ _ _ _ Hi Ha) as (Hlt & (w & Hd & Hw) & Ha' & _).
      assert (Hw1 : (1 <= w <= length (skipn p i))%nat).
      { eapply decode_width; [|exact Hd]. intro X. apply (f_equal (@length _)) in X.
        rewrite skipn_length in X. simpl in X. lia. }
      destruct (IH _ _ _ _ _ Hv2 Ha') as (l' & E' & Hv'); [lia|].
      exists l'. split; auto. unfold bytes_of in *. simpl. rewrite app_length, Nat.add_assoc. auto.
    + eexists; split; [reflexivity|]. rewrite Nat.add_0_r. auto.
Qed.
End Views.
