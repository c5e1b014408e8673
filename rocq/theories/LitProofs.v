(** Proofs about integer literals. *)
From Coq Require Import ZArith List Bool Lia.
From Verif Require Import LitModel LitSpec.
Import ListNotations.
Open Scope Z_scope.
Ltac Zify.zify_post_hook ::= Z.div_mod_to_equations.

Lemma digit_of_char c d : digit_char c d -> digit_of c = Some d.
Proof.
  intros H. assert (B : 0 <= d <= 15) by (destruct H; lia).
  assert (C : d = 0 \/ d = 1 \/ d = 2 \/ d = 3 \/ d = 4 \/ d = 5 \/ d = 6 \/ d = 7 \/ d = 8 \/ d = 9 \/ d = 10 \/ d = 11 \/ d = 12 \/ d = 13 \/ d = 14 \/ d = 15) by lia.
  destruct H as [[H E]|[H [E|E]]]; subst c;
    repeat (destruct C as [->|C]; [try lia; reflexivity|]); subst; try lia; reflexivity.
Qed.

Lemma value_bound base ds : 2 <= base -> Forall (fun d => 0 <= d < base) ds -> 0 <= value base ds.
Proof.
  intros B. induction 1 as [|d ds Hd _ IH]; cbn [value]; [lia|].
  assert (0 < base ^ Z.of_nat (length ds)) by (apply Z.pow_pos_nonneg; lia). nia.
Qed.

Lemma digits_value base : 2 <= base <= 16 -> forall cs ds, Forall2 digit_char cs ds -> Forall (fun d => 0 <= d < base) ds ->
  forall n, 0 <= n < 18446744073709551616 ->
  let v := n * base ^ Z.of_nat (length ds) + value base ds in
  digits_loop base n cs = if v <? 18446744073709551616 then POk v else PRange.
Proof.
  intros B. induction 1 as [|c d cs ds C _ IH]; intros F n Hn; cbn [digits_loop].
  - cbn. rewrite Z.mul_1_r, Z.add_0_r. destruct (Z.ltb_spec n 18446744073709551616); [reflexivity|lia].
  - inversion F as [|? ? Hd F1]; subst. rewrite (digit_of_char _ _ C). destruct (Z.leb_spec base d); [lia|].
    assert (P : 0 < base ^ Z.of_nat (length ds)) by (apply Z.pow_pos_nonneg; lia).
    assert (Vb := value_bound base ds (proj1 B) F1).
    cbv zeta. cbn [value length]. rewrite Nat2Z.inj_succ, Z.pow_succ_r by lia.
    replace (n * (base * base ^ Z.of_nat (length ds)) + (d * base ^ Z.of_nat (length ds) + value base ds))
      with ((n * base + d) * base ^ Z.of_nat (length ds) + value base ds) by ring.
    assert (Q : forall b, 2 <= b <= 16 -> 18446744073709551615 / b + 1 <= n <-> 18446744073709551615 < n * b).
    { intros b Hb. split; intros.
      - assert (18446744073709551615 < b * (18446744073709551615 / b + 1)) by (pose proof (Z.mul_succ_div_gt 18446744073709551615 b); lia). nia.
      - assert (18446744073709551615 / b < n); [|lia]. apply Z.div_lt_upper_bound; lia. }
    specialize (Q base B).
    destruct (Z.leb_spec (18446744073709551615 / base + 1) n) as [L|L].
    + apply Q in L. destruct (Z.ltb_spec ((n * base + d) * base ^ Z.of_nat (length ds) + value base ds) 18446744073709551616); [nia|reflexivity].
    + assert (L' : n * base < 18446744073709551616) by lia.
      assert (0 <= n * base) by nia.
      unfold uint64. rewrite !(Z.mod_small (n * base)) by lia.
      destruct (Z.ltb_spec (n * base + d) 18446744073709551616) as [S|S].
      * rewrite !(Z.mod_small (n * base + d)) by lia. destruct (Z.ltb_spec (n * base + d) (n * base)); [lia|].
        apply IH; [exact F1|lia].
      * replace ((n * base + d) mod 18446744073709551616) with (n * base + d - 18446744073709551616) by lia.
        destruct (Z.ltb_spec (n * base + d - 18446744073709551616) (n * base)); [|lia].
        destruct (Z.ltb_spec ((n * base + d) * base ^ Z.of_nat (length ds) + value base ds) 18446744073709551616); [nia|reflexivity].
Qed.

Lemma hex_below cs ds : Forall2 digit_char cs ds -> Forall (fun d => 0 <= d < 16) ds.
Proof. induction 1 as [|c d cs ds H]; constructor; auto. destruct H; lia. Qed.

Lemma written_nonneg s n : written s n -> 0 <= n.
Proof.
  intros [|c d cs ds Hd F _|c cs d ds F]; [lia|..]; apply value_bound; try lia.
  - constructor; [lia|]. eapply Forall_impl; [|exact F]. cbn. lia.
  - exact (hex_below _ _ F).
Qed.

Lemma parse_uint_written s n : written s n -> parse_uint s = if n <? 18446744073709551616 then POk n else PRange.
Proof.
  intros [|c d cs ds Hd F H|c cs d ds F].
  - reflexivity.
  - unfold parse_uint. assert (Hc : (c =? 48) = false).
    { inversion H as [|? ? ? ? C]; subst. apply Z.eqb_neq. destruct C; lia. }
    rewrite Hc, (digits_value 10 ltac:(lia) _ _ H); [|constructor; [lia|]; eapply Forall_impl; [|exact F]; cbn; lia|lia].
    rewrite Z.mul_0_l, Z.add_0_l. reflexivity.
  - unfold parse_uint. cbn [Z.eqb Pos.eqb].
    replace (lower 120 =? 98) with false by reflexivity. replace (lower 120 =? 111) with false by reflexivity.
    replace (lower 120 =? 120) with true by reflexivity. cbn [tl].
    rewrite (digits_value 16 ltac:(lia) _ _ F (hex_below _ _ F)) by lia.
    rewrite Z.mul_0_l, Z.add_0_l. reflexivity.
Qed.

Lemma written_first s n : written s n -> exists c r, s = c :: r /\ 48 <= c <= 57.
Proof.
  intros [|c d cs ds Hd F H|c cs d ds F]; [exists 48, []; split; [reflexivity|lia]| |].
  - exists c, cs. split; [reflexivity|]. inversion H as [|? ? ? ? C]; subst. destruct C; lia.
  - exists 48, (120 :: c :: cs). split; [reflexivity|lia].
Qed.

Lemma parse_plain s n : written s n -> parse_int s = if n <? 9223372036854775808 then POk n else PRange.
Proof.
  intros H. pose proof (written_nonneg _ _ H). destruct (written_first _ _ H) as [c [r [-> Hc]]].
  unfold parse_int. replace (c =? 45) with false by (symmetry; apply Z.eqb_neq; lia). replace (c =? 43) with false by (symmetry; apply Z.eqb_neq; lia).
  cbn [orb]. rewrite (parse_uint_written _ _ H). cbn [negb andb].
  destruct (Z.ltb_spec n 18446744073709551616), (Z.ltb_spec n 9223372036854775808), (Z.leb_spec 9223372036854775808 n); try lia; reflexivity.
Qed.
Lemma parse_minus s n : written s n -> parse_int (45 :: s) = if n <=? 9223372036854775808 then POk (- n) else PRange.
Proof.
  intros H. pose proof (written_nonneg _ _ H). unfold parse_int. cbn [Z.eqb Pos.eqb orb]. rewrite (parse_uint_written _ _ H). cbn [negb andb].
  destruct (Z.ltb_spec n 18446744073709551616), (Z.leb_spec n 9223372036854775808), (Z.ltb_spec 9223372036854775808 n); try lia; reflexivity.
Qed.

(** Leading zeros: the rest is read in base 8. *)
Lemma parse_octal cs ds : Forall2 digit_char cs ds -> Forall (fun d => 0 <= d <= 7) ds ->
  parse_int (48 :: cs) = if value 8 ds <? 9223372036854775808 then POk (value 8 ds) else PRange.
Proof.
  intros H F. assert (F' : Forall (fun d => 0 <= d < 8) ds) by (eapply Forall_impl; [|exact F]; cbn; lia).
  pose proof (value_bound 8 ds ltac:(lia) F') as Vb.
  assert (U : parse_uint (48 :: cs) = digits_loop 8 0 cs).
  { unfold parse_uint. cbn [Z.eqb Pos.eqb]. destruct cs as [|c [|c2 cs]]; auto.
    inversion H as [|? ? ? ? C]; subst. inversion F as [|? ? Hd]; subst.
    assert (Cc : 48 <= c <= 55) by (destruct C; lia).
    assert (N : lower c <> 98 /\ lower c <> 111 /\ lower c <> 120).
    { assert (E : c = 48 \/ c = 49 \/ c = 50 \/ c = 51 \/ c = 52 \/ c = 53 \/ c = 54 \/ c = 55) by lia.
      repeat (destruct E as [->|E]; [repeat split; discriminate|]). subst. repeat split; discriminate. }
    destruct N as [N1 [N2 N3]]. apply Z.eqb_neq in N1, N2, N3. rewrite N1, N2, N3. reflexivity. }
  unfold parse_int. cbn [Z.eqb Pos.eqb orb]. rewrite U, (digits_value 8 ltac:(lia) _ _ H F') by lia. rewrite Z.mul_0_l, Z.add_0_l. cbn [negb andb].
  destruct (Z.ltb_spec (value 8 ds) 18446744073709551616), (Z.ltb_spec (value 8 ds) 9223372036854775808), (Z.leb_spec 9223372036854775808 (value 8 ds)); try lia; reflexivity.
Qed.

Section NodeInd.
Variable P : node -> Prop.
Hypothesis HInt : forall s, P (NInt s).
Hypothesis HNeg : forall n, P n -> P (NNeg n).
Hypothesis HOther : forall op l, Forall P l -> P (NOther op l).
Fixpoint node_ind' (n : node) : P n :=
  match n with
  | NInt s => HInt s
  | NNeg m => HNeg m (node_ind' m)
  | NOther op l => HOther op l ((fix go l := match l return Forall P l with [] => Forall_nil P | a :: r => Forall_cons a (node_ind' a) (go r) end) l)
  end.
End NodeInd.

Lemma fold_other op l : fold (NOther op l) = let '(l, es) := fold_all l in (NOther op l, es).
Proof. reflexivity. Qed.
Lemma numbers_other op l : numbers (NOther op l) = option_map (VOther op) (numbers_all l).
Proof. reflexivity. Qed.

Lemma check_plain s n : written s n -> check_overflow s = [] <-> n < 9223372036854775808.
Proof.
  intros H. unfold check_overflow. rewrite (parse_plain _ _ H).
  destruct (Z.ltb_spec n 9223372036854775808); split; intros; try lia; try discriminate; reflexivity.
Qed.
Lemma check_minus s n : written s n -> check_overflow (45 :: s) = [] <-> n <= 9223372036854775808.
Proof.
  intros H. unfold check_overflow. rewrite (parse_minus _ _ H).
  destruct (Z.leb_spec n 9223372036854775808); split; intros; try lia; try discriminate; reflexivity.
Qed.

Lemma fold_errors : forall n v, stands_for n v -> (snd (fold n) = [] <-> fits v).
Proof.
  apply (node_ind' (fun n => forall v, stands_for n v -> (snd (fold n) = [] <-> fits v))).
  - intros s v H. inversion H; subst. cbn [fold snd]. rewrite (check_plain _ _ H1).
    split; [constructor; assumption|intros F; inversion F; assumption].
  - intros n IH v H. inversion H as [|? w Hn|]; subst. destruct n as [s|m|op l].
    + inversion Hn; subst. cbn [fold snd]. rewrite (check_minus _ _ H1).
      split; [apply fits_minus|]. intros F. inversion F as [|? L|? C|]; subst; [assumption|]. exfalso. eapply C. reflexivity.
    + cbn [fold]. specialize (IH _ Hn). destruct (fold (NNeg m)) as [m' es] eqn:E. fold fold. change (snd (let '(m0, es0) := fold (NNeg m) in (NNeg m0, es0)) = [] <-> fits (VNeg w)).
      rewrite E in *. cbn [snd] in *. rewrite IH. inversion Hn; subst. split; [apply fits_neg; discriminate|].
      intros F. inversion F; subst; assumption.
    + change (snd (let '(m0, es0) := fold (NOther op l) in (NNeg m0, es0)) = [] <-> fits (VNeg w)).
      specialize (IH _ Hn). destruct (fold (NOther op l)) as [m' es] eqn:E. cbn [snd] in *. rewrite IH. inversion Hn; subst.
      split; [apply fits_neg; discriminate|]. intros F. inversion F; subst; assumption.
  - intros op l IH v H. inversion H as [| |? ? vs Hl]; subst. rewrite fold_other.
    assert (G : snd (fold_all l) = [] <-> Forall fits vs).
    { clear H. induction Hl as [|a w l vs Ha Hl IHl]; [cbn; split; constructor|].
      inversion IH as [|? ? P1 P2]; subst. specialize (IHl P2). specialize (P1 _ Ha). cbn [fold_all].
      destruct (fold a) as [a' es], (fold_all l) as [l' fs]. cbn [snd] in *.
      split.
      - intros E. apply app_eq_nil in E as [E1 E2]. constructor; tauto.
      - intros F. inversion F; subst. rewrite (proj2 P1), (proj2 IHl) by assumption. reflexivity. }
    destruct (fold_all l) as [l' es]. cbn [snd] in *. rewrite G. split; [apply fits_other|intros F; inversion F; assumption].
Qed.

Section Meaning.
Context {D : Type} (lit : Z -> D) (neg : D -> D) (other : nat -> list D -> D).
Hypothesis neg_lit : forall z, neg (lit z) = lit (- z).
Notation meaning := (meaning lit neg other).

Lemma fold_meaning : forall n v n', stands_for n v -> fold n = (n', []) ->
  exists v', numbers n' = Some v' /\ meaning v' = meaning v.
Proof.
  apply (node_ind' (fun n => forall v n', stands_for n v -> fold n = (n', []) -> exists v', numbers n' = Some v' /\ meaning v' = meaning v)).
  - intros s v n' H E. inversion H; subst. cbn [fold] in E. inversion E; subst. rewrite H3 in *.
    apply (check_plain _ _ H1) in H3. exists (VInt z). cbn [numbers]. unfold literal. rewrite (parse_plain _ _ H1).
    destruct (Z.ltb_spec z 9223372036854775808); [|lia]. split; reflexivity.
  - intros n IH v n' H E. inversion H as [|? w Hn|]; subst.
    assert (G : (forall s, n <> NInt s) -> exists v', numbers n' = Some v' /\ meaning v' = meaning (VNeg w)).
    { intros N. assert (E' : (let '(m0, es0) := fold n in (NNeg m0, es0)) = (n', [])) by (destruct n; [congruence|exact E|exact E]).
      destruct (fold n) as [m es] eqn:Em. inversion E'; subst. destruct (IH _ _ Hn eq_refl) as [v' [E1 E2]].
      exists (VNeg v'). cbn [numbers]. rewrite E1. split; [reflexivity|]. cbn. rewrite E2. reflexivity. }
    destruct n as [s|m|op l]; [|apply G; discriminate|apply G; discriminate].
    inversion Hn; subst. cbn [fold] in E. inversion E; subst. rewrite H3 in *. apply (check_minus _ _ H1) in H3.
    exists (VInt (- z)). cbn [numbers]. unfold literal. rewrite (parse_minus _ _ H1).
    destruct (Z.leb_spec z 9223372036854775808); [|lia]. split; [reflexivity|]. cbn. symmetry. apply neg_lit.
  - intros op l IH v n' H E. inversion H as [| |? ? vs Hl]; subst. rewrite fold_other in E.
    destruct (fold_all l) as [l' es] eqn:El. inversion E; subst. rewrite numbers_other.
    assert (G : exists vs', numbers_all l' = Some vs' /\ map meaning vs' = map meaning vs).
    { clear H E. revert l' El. induction Hl as [|a w l vs Ha Hl IHl]; intros l' El; cbn [fold_all] in El.
      - inversion El; subst. exists []. split; reflexivity.
      - inversion IH as [|? ? P1 P2]; subst. destruct (fold a) as [a' es] eqn:Ea, (fold_all l) as [r fs] eqn:Er. inversion El as [[E1 E2]]; subst.
        apply app_eq_nil in E2 as [-> ->]. destruct (P1 _ _ Ha eq_refl) as [v' [V1 V2]]. destruct (IHl P2 _ eq_refl) as [vs' [V3 V4]].
        exists (v' :: vs'). cbn [numbers_all]. rewrite V1, V3. split; [reflexivity|]. cbn. congruence. }
    destruct G as [vs' [V1 V2]]. exists (VOther op vs'). rewrite V1. split; [reflexivity|]. cbn. rewrite V2. reflexivity.
Qed.
End Meaning.
