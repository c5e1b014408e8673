(** Instructions run on two machines that differ in registers not read. *)
From Coq Require Import ZArith List Bool String Lia.
From Verif Require Import X86 PeepModel PeepSpec.
Import ListNotations.
Open Scope Z_scope.
Ltac Zify.zify_post_hook ::= Z.div_mod_to_equations.
Local Arguments Z.mul : simpl never. Local Arguments Z.add : simpl never. Local Arguments Z.sub : simpl never.
Local Arguments Z.div : simpl never. Local Arguments Z.modulo : simpl never.
Local Arguments load : simpl never. Local Arguments store : simpl never. Local Arguments store8 : simpl never.
Local Arguments word : simpl never. Local Arguments imm32 : simpl never. Local Arguments w_shl : simpl never. Local Arguments w_sar : simpl never.

Lemma reg_eqb_eq a b : reg_eqb a b = true <-> a = b.
Proof. split; [destruct a, b; cbn; congruence|intros ->; destruct b; reflexivity]. Qed.
Lemma reg_eqb_refl a : reg_eqb a a = true.
Proof. now apply reg_eqb_eq. Qed.
Lemma reg_dec (a b : reg) : {a = b} + {a <> b}.
Proof. decide equality. Qed.
Lemma mem_reg_in r l : mem_reg r l = true <-> In r l.
Proof.
  unfold mem_reg. rewrite existsb_exists. split.
  - intros (x & H & E). apply reg_eqb_eq in E. now subst.
  - intros H. exists r. split; [exact H|apply reg_eqb_refl].
Qed.
Lemma rset_get rs r v x : rset rs r v x = if reg_eqb r x then v else rs x.
Proof. reflexivity. Qed.

Definition clear (D : reg -> bool) (l : list reg) : reg -> bool := fun r => if mem_reg r l then false else D r.
Definition all_clean (D : reg -> bool) (l : list reg) : Prop := forall r, In r l -> D r = false.
Lemma all_clean_app D a b : all_clean D (a ++ b) <-> all_clean D a /\ all_clean D b.
Proof. unfold all_clean. split; [intros H; split; intros; apply H, in_or_app; auto|intros [H1 H2] r H; apply in_app_or in H as [H|H]; auto]. Qed.
Lemma all_clean_cons D a b : all_clean D (a :: b) <-> D a = false /\ all_clean D b.
Proof. unfold all_clean. split; [intros H; split; intros; apply H; cbn; auto|intros [H1 H2] r [<-|H]; auto]. Qed.

Definition regs_same (D : reg -> bool) (rs1 rs2 : reg -> Z) : Prop := forall r, D r = false -> rs1 r = rs2 r.
Definition mem_same (m1 m2 : Z -> Z) : Prop := forall a, m1 a = m2 a.

Lemma load_same m1 m2 a : mem_same m1 m2 -> load m1 a = load m2 a.
Proof. intros H. unfold load. now rewrite !H. Qed.
Lemma store_same m1 m2 a v : mem_same m1 m2 -> mem_same (store m1 a v) (store m2 a v).
Proof. intros H x. unfold store. now rewrite H. Qed.
Lemma store8_same m1 m2 a v : mem_same m1 m2 -> mem_same (store8 m1 a v) (store8 m2 a v).
Proof. intros H x. unfold store8. now rewrite H. Qed.
Lemma rset_same D rs1 rs2 r v : regs_same D rs1 rs2 -> regs_same (clear D [r]) (rset rs1 r v) (rset rs2 r v).
Proof.
  intros H x Hx. rewrite !rset_get. unfold clear in Hx. cbn in Hx. destruct (reg_eqb r x) eqn:E; [reflexivity|].
  apply H. replace (reg_eqb x r) with false in Hx; [exact Hx|]. symmetry. apply not_true_is_false. rewrite reg_eqb_eq. intros ->. now rewrite reg_eqb_refl in E.
Qed.
Lemma rset_two D rs1 rs2 r v q w : regs_same D rs1 rs2 -> regs_same (clear D [r; q]) (rset (rset rs1 r v) q w) (rset (rset rs2 r v) q w).
Proof.
  intros H x Hx. rewrite !rset_get. unfold clear in Hx. cbn in Hx. destruct (reg_eqb q x) eqn:E; [reflexivity|]. destruct (reg_eqb r x) eqn:E2; [reflexivity|].
  apply H. replace (reg_eqb x r) with false in Hx; [replace (reg_eqb x q) with false in Hx; [exact Hx|]|];
    symmetry; apply not_true_is_false; rewrite reg_eqb_eq; intros ->; now rewrite reg_eqb_refl in *.
Qed.
Lemma clear_nil D rs1 rs2 : regs_same D rs1 rs2 -> regs_same (clear D []) rs1 rs2.
Proof. intros H x Hx. apply H. exact Hx. Qed.
Lemma regs_weaken D D' rs1 rs2 : (forall r, D' r = false -> D r = false) -> regs_same D rs1 rs2 -> regs_same D' rs1 rs2.
Proof. intros H1 H2 r Hr. apply H2, H1, Hr. Qed.

Lemma ea_same D rs1 rs2 a : regs_same D rs1 rs2 -> all_clean D (address_regs a) -> ea rs1 a = ea rs2 a.
Proof.
  intros H C. unfold ea. unfold address_regs in C. apply all_clean_cons in C as [C1 C2]. rewrite (H _ C1).
  destruct (m_idx a); [|reflexivity]. apply all_clean_cons in C2 as [C2 _]. now rewrite (H _ C2).
Qed.
Section Same.
Variable laddr : label -> Z.
Lemma read_same D rs1 m1 f1 rs2 m2 f2 o : regs_same D rs1 rs2 -> mem_same m1 m2 -> all_clean D (source_regs o) ->
  read (rs1, m1, f1) o = read (rs2, m2, f2) o.
Proof.
  intros H Hm C. destruct o as [r|r|z|l off|a|l|f]; cbn in *; try reflexivity.
  - apply all_clean_cons in C as [C _]. now rewrite (H _ C).
  - apply all_clean_cons in C as [C _]. now rewrite (H _ C).
  - destruct (m_deref a && negb (m_indir a)); [|reflexivity]. rewrite (ea_same D rs1 rs2 a H C). now rewrite (load_same m1 m2 _ Hm).
Qed.

(** Results that correspond. *)
Definition both (D : reg -> bool) (o1 o2 : option core) : Prop :=
  match o1, o2 with Some c1, Some c2 => same_but D c1 c2 | None, None => True | _, _ => False end.

Lemma write_same D rs1 m1 f1 rs2 m2 f2 o v : f1 = f2 -> regs_same D rs1 rs2 -> mem_same m1 m2 -> all_clean D (target_regs o) ->
  both (clear D (set_reg o)) (write (rs1, m1, f1) o v) (write (rs2, m2, f2) o v).
Proof.
  intros Hf H Hm C. destruct o as [r|r|z|l off|a|l|f]; cbn in *; try exact I.
  - split; [now apply rset_same|split; [exact Hm|exact Hf]].
  - destruct (m_deref a && negb (m_indir a)); [|exact I]. cbn. rewrite (ea_same D rs1 rs2 a H C).
    split; [now apply clear_nil|split; [now apply store_same|exact Hf]].
Qed.
Lemma both_flags D o1 o2 : both D o1 o2 -> both D (no_flags o1) (no_flags o2).
Proof. destruct o1 as [[[? ?] ?]|], o2 as [[[? ?] ?]|]; cbn; tauto. Qed.
Lemma target_source D o : all_clean D (source_regs o) -> all_clean D (target_regs o).
Proof. destruct o; cbn; auto; intros _ ? []. Qed.
Lemma arith_same D rs1 m1 f1 rs2 m2 f2 s d g : f1 = f2 -> regs_same D rs1 rs2 -> mem_same m1 m2 ->
  all_clean D (source_regs s) -> all_clean D (source_regs d) ->
  both (clear D (set_reg d)) (arith (rs1, m1, f1) s d g) (arith (rs2, m2, f2) s d g).
Proof.
  intros Hf H Hm C1 C2. unfold arith. rewrite (read_same D rs1 m1 f1 rs2 m2 f2 s H Hm C1), (read_same D rs1 m1 f1 rs2 m2 f2 d H Hm C2).
  destruct (read (rs2, m2, f2) s); [|exact I]. destruct (read (rs2, m2, f2) d); [|exact I].
  apply both_flags, write_same; auto using target_source.
Qed.
Lemma setcc_same D rs1 m1 f1 rs2 m2 f2 p : f1 = f2 -> regs_same D rs1 rs2 -> mem_same m1 m2 -> D rax = false ->
  both (clear D [rax]) (setcc (rs1, m1, f1) p) (setcc (rs2, m2, f2) p).
Proof.
  intros <- H Hm C. unfold setcc. destruct f1 as [[d s]|]; [|exact I]. cbn. rewrite (H _ C).
  split; [now apply rset_same|split; [exact Hm|reflexivity]].
Qed.
Lemma push_same D rs1 m1 f1 rs2 m2 f2 v : f1 = f2 -> regs_same D rs1 rs2 -> mem_same m1 m2 -> D rsp = false ->
  same_but (clear D [rsp]) (push (rs1, m1, f1) v) (push (rs2, m2, f2) v).
Proof.
  intros <- H Hm C. unfold push. cbn. rewrite (H _ C). split; [now apply rset_same|split; [now apply store_same|reflexivity]].
Qed.

Ltac ops_cases ops := destruct ops as [|o1 [|o2 [|o3 ops]]].
Ltac clean_tac := repeat match goal with
  | H : all_clean _ (_ ++ _) |- _ => apply all_clean_app in H as [? ?]
  | H : all_clean _ (_ :: _) |- _ => apply all_clean_cons in H as [? ?]
  end.

Lemma exec_same D i ops c1 c2 : same_but D c1 c2 -> all_clean D (uses i ops) ->
  both (clear D (sets i ops)) (exec laddr i ops c1) (exec laddr i ops c2).
Proof.
  destruct c1 as [[rs1 m1] f1], c2 as [[rs2 m2] f2]. intros (H & Hm & <-) C.
  assert (HR : regs_same D rs1 rs2) by exact H. assert (HM : mem_same m1 m2) by exact Hm. clear H Hm.
  destruct i; ops_cases ops; cbn [exec uses other_uses sets app] in *;
    try (now (cbn; auto)); clean_tac;
    try (now apply arith_same);
    try match goal with |- context [match ?o with _ => _ end] => is_var o; destruct o; try exact I; cbn [source_regs app] in *; clean_tac end;
    try match goal with |- context [match ?o with _ => _ end] => is_var o; destruct o; try exact I; cbn [source_regs app] in *; clean_tac end;
    try match goal with |- context [match ?o with _ => _ end] => is_var o; destruct o; try exact I; cbn [source_regs app] in *; clean_tac end.
  all: idtac.
  all: try (now apply setcc_same).
  all: try (cbn [set_reg]; rewrite !(HR _ ltac:(eassumption)); split; [now apply rset_same|split; [exact HM|reflexivity]]).
  - (* movq *) rewrite (read_same D rs1 m1 f1 rs2 m2 f1 o1 HR HM) by assumption. destruct (read (rs2, m2, f1) o1); [|exact I].
    now apply write_same.
  - (* movb *) destruct (m_deref m && negb (m_indir m)); [|exact I]. rewrite (ea_same D rs1 rs2 m HR) by assumption.
    rewrite !(HR _ ltac:(eassumption)). split; [now apply clear_nil|split; [now apply store8_same|reflexivity]].
  - (* movsbq *) destruct (m_deref m && negb (m_indir m)); [|exact I]. rewrite (ea_same D rs1 rs2 m HR) by assumption. rewrite HM.
    split; [now apply rset_same|split; [exact HM|reflexivity]].
  - (* movabs *) split; [now apply rset_same|split; [exact HM|reflexivity]].
  - split; [now apply rset_same|split; [exact HM|reflexivity]].
  - (* popq *) rewrite !(HR rsp ltac:(assumption)), (load_same m1 m2 _ HM). split; [now apply rset_two|split; [exact HM|reflexivity]].
  - (* pushq *) rewrite (read_same D rs1 m1 f1 rs2 m2 f1 o1 HR HM) by assumption. destruct (read (rs2, m2, f1) o1); [|exact I].
    now apply push_same.
  - (* leaq *) destruct (m_deref m && negb (m_indir m)); [|exact I]. rewrite (ea_same D rs1 rs2 m HR) by assumption.
    split; [now apply rset_same|split; [exact HM|reflexivity]].
  - (* cmpq *) rewrite (read_same D rs1 m1 f1 rs2 m2 f1 o1 HR HM), (read_same D rs1 m1 f1 rs2 m2 f1 o2 HR HM) by assumption.
    destruct (read (rs2, m2, f1) o1); [|exact I]. destruct (read (rs2, m2, f1) o2); [|exact I].
    split; [now apply clear_nil|split; [exact HM|reflexivity]].
  - (* shlq *) cbn [parent] in *. rewrite !(HR rcx ltac:(assumption)), !(HR r ltac:(assumption)). split; [now apply rset_same|split; [exact HM|reflexivity]].
  - (* sarq *) cbn [parent] in *. rewrite !(HR rcx ltac:(assumption)), !(HR r ltac:(assumption)). split; [now apply rset_same|split; [exact HM|reflexivity]].
  - (* idivq *) unfold idiv_quot. rewrite !(HR r ltac:(assumption)), !(HR rax ltac:(assumption)), !(HR rdx ltac:(assumption)).
    destruct (_ || _); [exact I|]. split; [now apply rset_two|split; [exact HM|reflexivity]].
  - (* leave *) rewrite !(HR rbp ltac:(assumption)), (load_same m1 m2 _ HM). split; [now apply rset_two|split; [exact HM|reflexivity]].
  - (* enter *) unfold push. rewrite !(HR rbp ltac:(assumption)), !(HR rsp ltac:(assumption)). destruct ((0 <=? z) && (z <? 65536)); [|exact I].
    split; [|split; [now apply store_same|reflexivity]]. intros x Hx. destruct x; cbn; try reflexivity; apply HR; exact Hx.
Qed.

Lemma settled_copy D rs1 rs2 a d : regs_same D rs1 rs2 ->
  regs_same (settled D movq [OReg a; OReg d]) (rset rs1 d (word (rs1 a))) (rset rs2 d (word (rs2 a))).
Proof.
  intros H x Hx. cbn in Hx. rewrite !rset_get. destruct (reg_eqb d x) eqn:E.
  - apply reg_eqb_eq in E. subst x. rewrite reg_eqb_refl in Hx. now rewrite (H a Hx).
  - apply H. destruct (reg_eqb x d) eqn:X; [apply reg_eqb_eq in X; subst; rewrite reg_eqb_refl in E; discriminate|exact Hx].
Qed.
Lemma exec_needs D i ops c1 c2 : same_but D c1 c2 -> all_clean D (needs i ops) ->
  both (settled D i ops) (exec laddr i ops c1) (exec laddr i ops c2).
Proof.
  intros S C.
  assert (K : (exists a d, i = movq /\ ops = [OReg a; OReg d]) \/ (needs i ops = uses i ops /\ forall r, settled D i ops r = clear D (sets i ops) r)).
  { destruct i; try (right; split; reflexivity). destruct ops as [|[] [|[] [|]]]; try (right; split; reflexivity). left. eauto. }
  destruct K as [(a & d & -> & ->)|[E K]].
  - destruct c1 as [[rs1 m1] f1], c2 as [[rs2 m2] f2]. destruct S as (H & Hm & <-). cbn. split; [|split; [exact Hm|reflexivity]].
    now apply settled_copy.
  - rewrite E in C. pose proof (exec_same D i ops c1 c2 S C) as B. unfold both in *.
    destruct (exec laddr i ops c1) as [[[? ?] ?]|], (exec laddr i ops c2) as [[[? ?] ?]|]; try exact B.
    destruct B as (B1 & B2 & B3). repeat split; [|exact B2|exact B3]. intros r Hr. apply B1. now rewrite <- K.
Qed.
End Same.
