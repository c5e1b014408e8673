(** What assignments to calls do: the code generator takes the pointer that the call returns
    for the place to write to. *)
From Coq Require Import ZArith List Bool String Lia.
From Verif Require Import Ints X86 GenModel GenSpec GenMem GenStatic GenSlots GenExec GenCorrect.
Import ListNotations.
Open Scope Z_scope.
Local Arguments Z.mul : simpl never. Local Arguments Z.add : simpl never. Local Arguments Z.sub : simpl never.
Local Arguments Z.of_nat : simpl never.
Local Arguments word : simpl never. Local Arguments rset : simpl never. Local Arguments load : simpl never.
Local Arguments store : simpl never.

Section Assign.
Variable laddr : label -> Z.
Variable mext : string -> regs * memory -> option (regs * memory).
Variable mskips : string -> bool.
Variable addr : nat -> Z.
Variable place : Z -> option nat.
Variable P : list event.
Variable heap : Z -> bool.
Variable lit : list Z -> Z.
Variable fun_addr : string -> Z.
Variable fun_at : Z -> option string.
Variable extern abstract : string -> list value -> memory -> option (value * memory).
Variable alloc : string.
Variable prog : list fundef.
Variable lits : list (list Z).
Variable lo hi room F : Z.

Notation STEPS := (steps laddr mext mskips addr place P).
Notation ENDS := (ends P STEPS heap).
Notation EVAL := (eval heap lit fun_addr fun_at extern abstract alloc prog).
Notation INV := (inv heap lo hi).
Notation SAME := (same hi).
Notation LOW d := (lo + room + Z.of_nat d * F).
Hypothesis L : linked laddr mext mskips addr place P heap lit fun_addr fun_at extern abstract alloc prog lits
  lo hi room.
Hypothesis HF0 : 0 <= F.
Hypothesis HF : forall fd, In fd prog -> safe_fun fd = true /\ frame_bytes fd <= F.
Notation ALLN := (all _ _ _ _ _ _ _ _ _ _ _ _ _ _ _ _ _ _ _ L HF0 HF).
Notation LITS := (lits_ok lits).

Ltac len := repeat (progress (rewrite ?app_length; cbn [List.length])); lia.
Ltac geff G := let A := fresh "A" in let B := fresh "B" in let C := fresh "C" in
  pose proof (gen_expr_eff _ _ _ _ _ _ G) as (A & B & C); cbn in A, B, C.
Ltac rs_simp := repeat (rewrite rset_same || rewrite rset_other by discriminate).
Ltac one_step_push Q W V := eapply ends_steps;
  [apply steps_one; cbn [step]; rewrite Q; cbn [exec read push]; rewrite W, V; reflexivity|].

Lemma S_assign_call N d slot T B r h s c s' n q rs m fl lhs e : gen_expr slot lhs true = gen_expr slot lhs false ->
  gen_assign slot None lhs e s = Some (c, s') -> code_at P n c -> LITS s' -> safe 0 e = true -> safe 0 lhs = true ->
  in_use_types s = [] -> g_sp s = T ->
  INV slot T B T [] r h rs m -> LOW d + 8 * Z.max (pushes e) (1 + pushes lhs) <= rs rsp ->
  ENDS (MState n (rs, m, fl)) (need (EVAL N d r h e) (fun v h => need (EVAL N d r h lhs) (fun a h =>
      if ok8 heap a then Val (ONormal, r, store h a v) else Stuck)))
    (stmt_post heap lo hi slot T B (n + List.length c) q m).
Proof.
  assert (Hst : 0 <= lo /\ hi < W) by (destruct (lk_stack _ _ _ _ _ _ _ _ _ _ _ _ _ _ _ _ _ _ L) as (? & ? & ?); auto).
  pose proof (lk_heap _ _ _ _ _ _ _ _ _ _ _ _ _ _ _ _ _ _ L) as Hhp.
  assert (Hld : lo <= LOW d) by (destruct (lk_stack _ _ _ _ _ _ _ _ _ _ _ _ _ _ _ _ _ _ L) as (? & ? & ?); lia).
  pose proof (pushes_nonneg lhs) as Hpl.
  intros Hsame Hg Hc Hlit Hsafe Hsafel Hu Hsp Hi Hlow'. unfold gen_assign in Hg.
  apply seq_inv in Hg as (c1 & s1 & c2 & G1 & Hg & ->). geff G1.
  apply seq_inv in Hg as (c3 & s3 & c4 & G3 & Hg & ->). apply save_inv in G3 as [-> ->].
  apply seq_inv in Hg as (c5 & s5 & c6 & G5 & Hg & ->). rewrite Hsame in G5. geff G5.
  apply seq_inv in Hg as (c7 & s7 & c8 & H7 & Hg & ->). apply restore_inv in H7 as [-> ->].
  apply seq_inv in Hg as (c9 & s9 & c10 & H9 & Hg & ->). apply ins_inv in H9 as [-> ->]. ginv1 Hg.
  apply code_at_app in Hc as [Hc1 Hc].
  assert (Hl5 : LITS s5) by exact Hlit.
  assert (Hl1 : LITS s1) by (eapply lits_back; [|exact Hl5]; assumption).
  pose proof (al_e _ _ _ _ _ _ _ _ _ _ _ _ _ _ _ _ _ _ _ _ (ALLN N)) as IH.
  unfold need at 1. eapply stmt_value; [exact IH|exact G1|exact Hc1|exact Hl1|exact Hsafe|exact Hu|exact Hsp|exact Hi|lia|].
  intros [w|] h1 rs1 m1 fl1 Hv Hs1 Hi1; [|exact I]. destruct Hv as [Hv Hw].
  assert (Hrsp : rs1 rsp = rs rsp) by (eapply inv_rsp_eq; eassumption).
  assert (HsB : SAME B m m1) by (eapply same_frame; eassumption).
  apply code_at_cons in Hc as [Hpush Hc]. apply code_at_app in Hc as [Hc5 Hc]. rewrite app_nil_r in Hc.
  destruct (inv_push heap lo hi _ _ _ _ _ _ _ _ _ w Hst Hhp Hi1 ltac:(lia)) as (Hi3 & Hw3 & Hs3).
  one_step_push Hpush Hw3 Hv.
  set (rs3 := rset rs1 rsp (rs1 rsp - 8)) in *. set (m3 := store m1 (rs1 rsp - 8) w) in *.
  assert (Hr3 : rs3 rsp = rs1 rsp - 8) by (unfold rs3; now rs_simp).
  assert (Hl3 : load m3 (rs3 rsp) = w) by (unfold m3; rewrite Hr3, load_store_same; now apply word_id).
  clearbody rs3. assert (Hbd : rs rsp + 16 <= hi) by (eapply inv_bound; eassumption).
  unfold need. eapply ends_bind.
  { eapply (IH lhs d slot T B [] r h1 (set_sp (fun x => x + 1) s1)); [exact G5|exact Hc5|exact Hl5|exact Hsafel| | |].
    - unfold in_use_types in *. cbn [g_reg set_sp]. rewrite B0, Hu. reflexivity.
    - cbn [g_sp set_sp]. rewrite A, Hsp. exact Hi3.
    - rewrite Hr3. lia. }
  intros [[p|] h2] st2 (rs4 & m4 & fl4 & -> & Hv4 & Hs4 & Hi4); [|exact I]. destruct Hv4 as [Hv4 Hw4].
  cbn [g_sp set_sp] in Hi4. rewrite A, Hsp in Hi4.
  assert (Hrsp4 : rs4 rsp = rs3 rsp) by (eapply inv_rsp_eq; eassumption).
  destruct (ok8 heap p) eqn:Ho; [|exact I].
  pose proof (ok8_word heap lo hi p Hhp Ho) as Hp8.
  match type of Hc with code_at _ ?x _ => match goal with |- ENDS (MState ?y _) _ _ => replace y with x by lia end end.
  edestruct (store_end laddr mext mskips addr place P) with (fl := fl4) as (rs5 & S5 & I5 & R5); [exact L|exact Hc|exact Hi4| |exact Hv4|exact Hp8|].
  - rewrite Hrsp4, (same_load hi (rs3 rsp) m3 m4); [exact Hl3|exact Hs4|lia|lia].
  - eapply ends_steps; [exact S5|]. apply ends_val. exists rs5, (store m4 p w), fl4.
    destruct Hi as [J1 J2 J3 J4 J5 J6 J7 J8]. pose proof J1 as [X1 X2 [X3 X3'] X4 X5 X6]. pose proof Hst as [Hst1 Hst2].
    assert (Hs5 : SAME B m4 (store m4 p w)) by (apply (same_store_heap heap lo hi); [exact Hhp|exact Ho|lia]).
    split; [f_equal; len|]. split.
    + apply (same_trans hi B _ m m1); [lia|exact HsB|]. apply (same_trans hi (rs1 rsp) _ m1 m3); [lia|exact Hs3|].
      apply (same_trans hi (rs3 rsp) _ m3 m4); [lia|exact Hs4|exact Hs5].
    + eapply inv_heap; [exact I5| |].
      * apply (same_store_heap heap lo hi); [exact Hhp|exact Ho|]. apply I5.
      * apply agree_store. apply I5.
Qed.
End Assign.
