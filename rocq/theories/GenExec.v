(** Running generated code on the machine: straight-line code, the stack, and what an
    activation keeps invariant. *)
From Coq Require Import ZArith List Bool String Lia.
From Verif Require Import Ints X86 GenModel GenSpec GenMem GenStatic.
Import ListNotations.
Open Scope Z_scope.
Ltac Zify.zify_post_hook ::= Z.div_mod_to_equations.
Local Arguments Z.mul : simpl never. Local Arguments Z.add : simpl never. Local Arguments Z.sub : simpl never.

(* --------------------------------------------------------------------- code in place *)

Lemma code_at_app P n a b : code_at P n (a ++ b) -> code_at P n a /\ code_at P (n + List.length a) b.
Proof.
  intros H. split; intros i e Hi.
  - apply H. rewrite nth_error_app1; [exact Hi|]. apply nth_error_Some. now rewrite Hi.
  - rewrite <- Nat.add_assoc. apply H. rewrite nth_error_app2 by lia.
    now replace (List.length a + i - List.length a)%nat with i by lia.
Qed.
Lemma code_at_cons P n e b : code_at P n (e :: b) -> nth_error P n = Some e /\ code_at P (S n) b.
Proof.
  intros H. split.
  - rewrite <- (Nat.add_0_r n). now apply H.
  - intros i x Hi. replace (S n + i)%nat with (n + S i)%nat by lia. now apply H.
Qed.

Section Exec.
Variable laddr : label -> Z.
Variable mext : string -> regs * memory -> option (regs * memory).
Variable mskips : string -> bool.
Variable addr : nat -> Z.
Variable place : Z -> option nat.
Variable P : list event.
Notation STEP := (step laddr mext mskips addr place P).
Notation STEPS := (steps laddr mext mskips addr place P).

Lemma steps_trans a b c : STEPS a b -> STEPS b c -> STEPS a c.
Proof. induction 1; intros; [assumption|]. econstructor; eauto. Qed.
Lemma steps_one a b : STEP a = Some b -> STEPS a b.
Proof. intros H. econstructor; [exact H|constructor]. Qed.

(** Straight-line code. *)
Fixpoint sx (c : list event) (k : core) : option core :=
  match c with
  | [] => Some k
  | EIns i ops :: t =>
    match i with
    | jmp | jne | jae | je | call | ret => None
    | _ => match exec laddr i ops k with Some k' => sx t k' | None => None end
    end
  | ELabel _ :: t | EFlush :: t | EFn _ :: t => sx t k
  | _ :: _ => None
  end.

Lemma sx_app a : forall b k, sx (a ++ b) k = match sx a k with Some k' => sx b k' | None => None end.
Proof.
  induction a as [|e a IH]; intros b k; [reflexivity|].
  destruct e as [i ops| | | | | | |]; cbn [app sx]; auto.
  destruct i; auto; destruct (exec laddr _ ops k); auto.
Qed.

Lemma sx_steps c : forall n k k', code_at P n c -> sx c k = Some k' ->
  STEPS (MState n k) (MState (n + List.length c) k').
Proof.
  induction c as [|e c IH]; intros n k k' Hc H.
  - injection H as <-. rewrite Nat.add_0_r. constructor.
  - apply code_at_cons in Hc as [He Hc]. cbn [List.length]. replace (n + S (List.length c))%nat with (S n + List.length c)%nat by lia.
    destruct e as [i ops| | | | | | |]; cbn [sx] in H; try discriminate;
      try (eapply steps_step; [|eapply IH; eauto]; cbn [step]; rewrite He; destruct k as [[rs m] fl]; reflexivity).
    assert (E : exists k1, exec laddr i ops k = Some k1 /\ sx c k1 = Some k' /\
              match i with jmp | jne | jae | je | call | ret => False | _ => True end).
    { destruct i; try discriminate; (destruct (exec laddr _ ops k) as [k1|]; [|discriminate]); eauto. }
    destruct E as (k1 & E1 & E2 & E3).
    eapply steps_step; [|eapply IH; eauto].
    cbn [step]. rewrite He. destruct k as [[rs m] fl].
    destruct i; try (elim E3); rewrite E1; reflexivity.
Qed.
End Exec.

(** Registers. *)
Lemma rset_same rs r v : rset rs r v r = v.
Proof. unfold rset. now destruct r. Qed.
Lemma rset_other rs r r' v : r <> r' -> rset rs r v r' = rs r'.
Proof. unfold rset. intros H. destruct r, r'; try reflexivity; now elim H. Qed.

Lemma arg_reg_cases i r : nth_error arg_regs i = Some r ->
  (i = 0%nat /\ r = rdi) \/ (i = 1%nat /\ r = rsi) \/ (i = 2%nat /\ r = rdx) \/ (i = 3%nat /\ r = rcx) \/
  (i = 4%nat /\ r = r8) \/ (i = 5%nat /\ r = r9).
Proof.
  do 6 (destruct i as [|i]; [cbn; intros H; injection H as <-; tauto|]). destruct i; discriminate.
Qed.
Lemma arg_reg_not i r : nth_error arg_regs i = Some r -> r <> rax /\ r <> rbx /\ r <> rsp /\ r <> rbp.
Proof. intros H. apply arg_reg_cases in H. intuition (subst; discriminate). Qed.
Lemma arg_reg_inj i j r : nth_error arg_regs i = Some r -> nth_error arg_regs j = Some r -> i = j.
Proof. intros H1 H2. apply arg_reg_cases in H1, H2. intuition (subst; congruence). Qed.

(** Registers not used for the first [k] arguments. *)
Definition free (k : nat) (r : reg) : Prop := forall i, nth_error arg_regs i = Some r -> (k <= i)%nat.
Lemma free_rax k : free k rax.
Proof. intros i H. apply arg_reg_not in H. tauto. Qed.
Lemma free_rbx k : free k rbx.
Proof. intros i H. apply arg_reg_not in H. tauto. Qed.
Lemma free_rdx k : (k <= 2)%nat -> free k rdx.
Proof. intros Hk i H. apply arg_reg_cases in H. intuition (try discriminate; lia). Qed.
Lemma free_rcx k : (k <= 3)%nat -> free k rcx.
Proof. intros Hk i H. apply arg_reg_cases in H. intuition (try discriminate; lia). Qed.


(* ------------------------------------------------------------------------ activations *)

Section Same.
Variable hi : Z.
Notation same := (same hi).
Lemma same_refl R m : same R m m.
Proof. intros a _. reflexivity. Qed.
Lemma same_trans R R' m1 m2 m3 : R <= R' -> same R m1 m2 -> same R' m2 m3 -> same R' m1 m3.
Proof. intros HR H1 H2 a Ha. rewrite H2 by lia. apply H1. lia. Qed.
Lemma same_weaken R R' m m' : R <= R' -> same R m m' -> same R' m m'.
Proof. intros HR H a Ha. apply H. lia. Qed.
Lemma same_store R m a v : a + 8 <= R -> same R m (store m a v).
Proof. intros H x Hx. apply store_other. lia. Qed.
Lemma same_load R m m' a : same R m m' -> R <= a -> a + 8 <= hi -> load m' a = load m a.
Proof. intros H H1 H2. apply load_ext. intros i Hi. apply H. lia. Qed.
End Same.

Section Act.
Variable heap : Z -> bool.
Variable lo hi : Z.
Definition stack_ok : Prop := 0 <= lo /\ hi < W.
Definition heap_ok : Prop := forall a, heap a = true -> is_addr a /\ (a < lo \/ hi <= a).

Notation same := (same hi).
(** The stack is not seen by programs. *)
Lemma agree_store_stack m h a v : heap_ok -> agree heap m h -> lo <= a -> a + 8 <= hi -> agree heap (store m a v) h.
Proof.
  intros Hheap H H1 H2 x Hx. rewrite store_other; [now apply H|]. destruct (Hheap x Hx) as [_ Hr]. lia.
Qed.
Lemma ok8_heap a : ok8 heap a = true -> forall i, 0 <= i < 8 -> heap (a + i) = true.
Proof.
  unfold ok8. rewrite !andb_true_iff. intros H i Hi.
  assert (i = 0 \/ i = 1 \/ i = 2 \/ i = 3 \/ i = 4 \/ i = 5 \/ i = 6 \/ i = 7) as
    [E|[E|[E|[E|[E|[E|[E|E]]]]]]] by lia; subst i; rewrite ?Z.add_0_r; tauto.
Qed.
Lemma agree_load m h a : agree heap m h -> ok8 heap a = true -> load m a = load h a.
Proof. intros H Ho. apply load_ext. intros i Hi. apply H. now apply ok8_heap. Qed.
Lemma agree_store m h a v : agree heap m h -> agree heap (store m a v) (store h a v).
Proof. intros H x Hx. unfold store. destruct (_ && _); [reflexivity|now apply H]. Qed.
Lemma ok8_word a : heap_ok -> ok8 heap a = true -> is_word a.
Proof.
  intros Hheap H. pose proof (ok8_heap a H 0 ltac:(lia)) as H0. rewrite Z.add_0_r in H0.
  destruct (Hheap a H0) as [Hw _]. exact Hw.
Qed.
(** A store to what programs may touch leaves the stack alone. *)
Lemma same_store_heap R m a v : heap_ok -> ok8 heap a = true -> lo <= R -> same R m (store m a v).
Proof.
  intros Hheap H HR x Hx. unfold store. destruct (_ && _) eqn:E; [|reflexivity]. exfalso.
  pose proof (ok8_heap a H (x - a) ltac:(lia)) as G. replace (a + (x - a)) with x in G by lia.
  destruct (Hheap _ G) as [_ B]. lia.
Qed.

Notation act_ok := (act_ok lo hi).
Notation inv := (inv heap lo hi).
Lemma in_use_set us rs r v : free (List.length us) r -> in_use us rs -> in_use us (rset rs r v).
Proof.
  intros Hf [H1 H2]. split; [|exact H2]. intros i w r' Hi Hr.
  rewrite rset_other; [now apply (H1 i w)|]. intros ->.
  pose proof (Hf i Hr). assert (i < List.length us)%nat by (apply nth_error_Some; now rewrite Hi). lia.
Qed.

Lemma inv_set slot T B sp us r h rs m x v : free (List.length us) x -> x <> rsp -> x <> rbp ->
  inv slot T B sp us r h rs m -> inv slot T B sp us r h (rset rs x v) m.
Proof.
  intros Hf H1 H2 [A1 A2 A3 A4 A5 A6 A7 A8].
  constructor; rewrite ?rset_other by auto; auto. now apply in_use_set.
Qed.

Lemma inv_rsp_word slot T B sp us r h rs m : stack_ok -> inv slot T B sp us r h rs m -> is_word (rs rsp).
Proof.
  intros Hstack [[? ? [? ?] ? ? ?] A2 A3 A4 A5 A6 A7 A8]. unfold is_word, stack_ok in *. lia.
Qed.

Lemma env_rel_same slot T B r m m' R : act_ok slot T B -> R <= B - 8 * T -> same R m m' ->
  env_rel slot B r m -> env_rel slot B r m'.
Proof.
  intros [B1 B2 B3 B4 B5 B6] HR Hs H x v Hx. destruct (H x v Hx) as (H1 & H2 & H3).
  split; [exact H1|]. split; [exact H2|]. destruct (B5 x H2). rewrite <- H3. apply (same_load hi R); [exact Hs|lia|lia].
Qed.

(** pushq *)
Lemma inv_push slot T B sp us r h rs m v : stack_ok -> heap_ok -> inv slot T B sp us r h rs m -> lo <= rs rsp - 8 ->
  inv slot T B (sp + 1) us r h (rset rs rsp (rs rsp - 8)) (store m (rs rsp - 8) v) /\
  word (rs rsp - 8) = rs rsp - 8 /\ same (rs rsp) m (store m (rs rsp - 8) v).
Proof.
  intros Hstack Hheap Hi Hlo. pose proof (inv_rsp_word _ _ _ _ _ _ _ _ _ Hstack Hi) as Hw.
  destruct Hi as [A1 A2 A3 A4 A5 A6 A7 A8]. pose proof A1 as [B1 B2 [B3 B3'] B4 B5 B6].
  split; [|split; [apply word_id; unfold is_word, stack_ok in *; lia|apply same_store; lia]].
  constructor; rewrite ?rset_same, ?rset_other by discriminate; auto; try lia.
  - apply (env_rel_same slot T B r m _ (rs rsp)); auto; [lia|]. apply same_store. lia.
  - apply agree_store_stack; auto. lia.
  - apply in_use_set; auto. intros i Hr. apply arg_reg_not in Hr. tauto.
Qed.

(** popq *)
Lemma inv_pop slot T B sp us r h rs m x v : stack_ok -> inv slot T B (sp + 1) us r h rs m -> T <= sp ->
  free (List.length us) x -> x <> rsp -> x <> rbp ->
  inv slot T B sp us r h (rset (rset rs rsp (rs rsp + 8)) x v) m /\ word (rs rsp + 8) = rs rsp + 8.
Proof.
  intros Hstack Hi HT Hf Hx1 Hx2. pose proof (inv_rsp_word _ _ _ _ _ _ _ _ _ Hstack Hi) as Hw.
  destruct Hi as [A1 A2 A3 A4 A5 A6 A7 A8]. pose proof A1 as [B1 B2 [B3 B3'] B4 B5 B6].
  split; [|apply word_id; unfold is_word, stack_ok in *; lia].
  constructor; rewrite ?rset_same, ?(rset_other _ x), ?rset_same, ?rset_other by auto;
    try rewrite rset_other by discriminate; auto; try lia.
  apply in_use_set; auto. apply in_use_set; auto. intros i Hr. apply arg_reg_not in Hr. tauto.
Qed.

Lemma inv_pop' slot T B sp us r h rs m x v : stack_ok -> inv slot T B (sp + 1) us r h rs m -> T <= sp ->
  free (List.length us) x -> x <> rsp -> x <> rbp ->
  inv slot T B sp us r h (rset (rset rs rsp (word (rs rsp + 8))) x v) m.
Proof.
  intros H1 H2 H3 H4 H5 H6. destruct (inv_pop slot T B sp us r h rs m x v H1 H2 H3 H4 H5 H6) as [H7 ->]. exact H7.
Qed.

(** Only the heap of the language changes. *)
Lemma inv_heap slot T B sp us r h h' rs m m' : inv slot T B sp us r h rs m ->
  same (rs rsp) m m' -> agree heap m' h' -> inv slot T B sp us r h' rs m'.
Proof.
  intros [A1 A2 A3 A4 A5 A6 A7 A8] Hs Ha. constructor; auto.
  apply (env_rel_same slot T B r m _ (rs rsp)); auto. lia.
Qed.

(** After a called function. *)
Lemma inv_after slot T B sp us r h h' rs m rs' m' : inv slot T B sp us r h rs m ->
  same (rs rsp) m m' -> agree heap m' h' -> rs' rsp = rs rsp -> rs' rbp = rs rbp -> in_use us rs' ->
  inv slot T B sp us r h' rs' m'.
Proof.
  intros [A1 A2 A3 A4 A5 A6 A7 A8] Hs Ha H1 H2 H3. constructor; auto; try congruence.
  apply (env_rel_same slot T B r m _ (rs rsp)); auto. lia.
Qed.

End Act.

(** Spilled registers. *)
Lemma spill_run laddr k : forall i rs m fl, (i + k <= 6 \/ k = 0)%nat -> is_word (rs rsp) -> 8 * Z.of_nat k <= rs rsp ->
  exists rs' m', sx laddr (spill_code i k) (rs, m, fl) = Some (rs', m', fl) /\
  rs' rsp = rs rsp - 8 * Z.of_nat k /\ (forall r, r <> rsp -> rs' r = rs r) /\
  (forall a, a < rs rsp - 8 * Z.of_nat k \/ rs rsp <= a -> m' a = m a) /\
  forall j r, (j < k)%nat -> nth_error arg_regs (i + j) = Some r ->
    load m' (rs rsp - 8 * Z.of_nat k + 8 * Z.of_nat j) = word (rs r).
Proof.
  induction k as [|k IH]; intros i rs m fl Hk Hw Hr.
  - exists rs, m. repeat split; auto; try lia.
  - destruct (IH (S i) rs m fl ltac:(lia) Hw ltac:(lia)) as (rs1 & m1 & E1 & E2 & E3 & E4 & E5).
    cbn [spill_code]. rewrite sx_app, E1.
    destruct (nth_error arg_regs i) as [r|] eqn:N.
    2:{ apply nth_error_None in N. cbn in N. lia. }
    cbn [sx exec read push]. rewrite E2.
    assert (Ew : word (rs rsp - 8 * Z.of_nat k - 8) = rs rsp - 8 * Z.of_nat (S k)).
    { rewrite word_id; [lia|]. unfold is_word in *. lia. }
    rewrite Ew. eexists _, _. split; [reflexivity|].
    pose proof (arg_reg_not _ _ N) as (_ & _ & Nr & _).
    split; [now rewrite rset_same|]. split; [intros; rewrite rset_other by auto; auto|].
    split.
    + intros a Ha. rewrite store_other by lia. apply E4. lia.
    + intros j r' Hj Hr'. destruct j as [|j].
      * rewrite Nat.add_0_r in Hr'. rewrite Hr' in N. injection N as ->.
        rewrite Z.mul_0_r, Z.add_0_r, load_store_same. now rewrite E3.
      * rewrite load_store_other by lia. rewrite <- (E5 j r') by (lia || (rewrite <- Hr'; f_equal; lia)).
        f_equal. lia.
Qed.

Lemma unspill_run laddr k : forall i rs m fl, (i + k <= 6 \/ k = 0)%nat -> 0 <= rs rsp -> rs rsp + 8 * Z.of_nat k < W ->
  exists rs', sx laddr (unspill_code i k) (rs, m, fl) = Some (rs', m, fl) /\
  rs' rsp = rs rsp + 8 * Z.of_nat k /\
  (forall r, r <> rsp -> (forall j, (j < k)%nat -> nth_error arg_regs (i + j) <> Some r) -> rs' r = rs r) /\
  forall j r, (j < k)%nat -> nth_error arg_regs (i + j) = Some r -> rs' r = load m (rs rsp + 8 * Z.of_nat j).
Proof.
  induction k as [|k IH]; intros i rs m fl Hk Hw Hr.
  - exists rs. repeat split; auto; try lia.
  - cbn [unspill_code]. destruct (nth_error arg_regs i) as [r|] eqn:N.
    2:{ apply nth_error_None in N. cbn in N. lia. }
    pose proof (arg_reg_not _ _ N) as (_ & _ & Nr & _).
    cbn [app sx exec]. rewrite word_id by (unfold is_word; lia).
    set (rs1 := rset (rset rs rsp (rs rsp + 8)) r (load m (rs rsp))).
    assert (Hsp : rs1 rsp = rs rsp + 8) by (unfold rs1; rewrite rset_other by auto; apply rset_same).
    destruct (IH (S i) rs1 m fl ltac:(lia) ltac:(lia) ltac:(lia)) as (rs' & E1 & E2 & E3 & E4).
    exists rs'. split; [exact E1|]. split; [lia|]. split.
    + intros r' H1 H2. rewrite E3; auto.
      * unfold rs1. rewrite !rset_other; auto. intros ->. apply (H2 0%nat); [lia|]. now rewrite Nat.add_0_r.
      * intros j Hj. replace (S i + j)%nat with (i + S j)%nat by lia. apply H2. lia.
    + intros j r' Hj Hr'. destruct j as [|j].
      * rewrite Nat.add_0_r in Hr'. rewrite Hr' in N. injection N as ->.
        rewrite E3; auto.
        -- unfold rs1. rewrite rset_same. f_equal. lia.
        -- intros j Hj2 Hc. pose proof (arg_reg_inj _ _ _ Hr' Hc). lia.
      * rewrite (E4 j r') by (lia || (rewrite <- Hr'; f_equal; lia)). rewrite Hsp. f_equal. lia.
Qed.
