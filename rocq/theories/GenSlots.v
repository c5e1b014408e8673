(** Facts about the code generated for statements and about the slots of variables. *)
From Coq Require Import ZArith List Bool String Lia.
From Verif Require Import X86 GenModel GenSpec GenStatic.
Import ListNotations.
Open Scope Z_scope.
Ltac Zify.zify_post_hook ::= Z.div_mod_to_equations.
Local Arguments Z.mul : simpl never. Local Arguments Z.add : simpl never. Local Arguments Z.sub : simpl never.
Local Arguments Z.of_nat : simpl never.

(* ---------------------------------------------------------------------- statements *)

Section StmtInd.
Variable Q : stmt -> Prop.
Hypothesis Hret : forall e, Q (SReturn e).
Hypothesis Hif : forall bs, Forall (fun b => Forall Q (snd b)) bs -> Q (SIf bs).
Hypothesis Hdas : forall x t e, Q (SDas x t e).
Hypothesis Has : forall l e, Q (SAs l e).
Hypothesis Hwhile : forall c b, Forall Q b -> Q (SWhile c b).
Hypothesis Hblock : forall b, Forall Q b -> Q (SBlock b).
Hypothesis Hexpr : forall e, Q (SExpr e).
Fixpoint stmt_ind' (st : stmt) : Q st :=
  let fix all (l : list stmt) : Forall Q l :=
    match l with [] => Forall_nil _ | s :: r => Forall_cons _ (stmt_ind' s) (all r) end in
  let fix branches (bs : list (option expr * list stmt)) : Forall (fun b => Forall Q (snd b)) bs :=
    match bs with [] => Forall_nil _ | b :: r => Forall_cons _ (all (snd b)) (branches r) end in
  match st with
  | SReturn e => Hret e
  | SIf bs => Hif bs (branches bs)
  | SDas x t e => Hdas x t e
  | SAs l e => Has l e
  | SWhile c b => Hwhile c b (all b)
  | SBlock b => Hblock b (all b)
  | SExpr e => Hexpr e
  end.
End StmtInd.

Section Eff.
Variable slot : nat -> Z.
Variable x : bool.
Lemma gen_stmt_if bs : gen_stmt slot x (SIf bs) =
  new_label PIfEnd (fun exit => seq (gen_branches slot x exit bs) (emit (ELabel exit))).
Proof. reflexivity. Qed.
Lemma gen_stmt_while c b : gen_stmt slot x (SWhile c b) =
  new_label PWhileEnd (fun exit => new_label PWhileStart (fun start =>
    seq (emit (ELabel start)) (seq (gen_expr slot c false) (seq (ins cmpq [true_op; OReg rax]) (seq (ins jne [OLab exit])
    (seq (gen_block slot x b) (seq (ins jmp [OLab start]) (emit (ELabel exit))))))))).
Proof. reflexivity. Qed.
Lemma gen_stmt_block b : gen_stmt slot x (SBlock b) = gen_block slot x b.
Proof. reflexivity. Qed.

Lemma gen_block_inv l s c s' : gen_block slot x l s = Some (c, s') ->
  exists s1, gen_list slot x l (set_scopes (cons (List.length (g_roots s))) s) = Some (c, s1) /\ eff s1 s'.
Proof.
  unfold gen_block. intros H. apply seq_inv in H as (c1 & s1 & c2 & H1 & H & ->). unfold open_scope in H1. injection H1 as <- <-.
  apply seq_inv in H as (c3 & s3 & c4 & H3 & H & ->). unfold close_scope in H. destruct (g_scopes s3); [discriminate|].
  injection H as <- <-. exists s3. rewrite app_nil_r. split; [exact H3|]. repeat split. apply extends_refl.
Qed.
Lemma eff_scopes f s : eff s (set_scopes f s).
Proof. repeat split. apply extends_refl. Qed.
Lemma gen_list_eff l : Forall (fun st => forall s c s', gen_stmt slot x st s = Some (c, s') -> eff s s') l ->
  forall s c s', gen_list slot x l s = Some (c, s') -> eff s s'.
Proof.
  induction 1 as [|st l Hst _ IH]; intros s c s' H; cbn [gen_list] in H.
  - ginv H. apply eff_refl.
  - apply seq_inv in H as (c1 & s1 & c2 & H1 & H & ->). eauto using eff_trans.
Qed.
Lemma gen_block_eff l : Forall (fun st => forall s c s', gen_stmt slot x st s = Some (c, s') -> eff s s') l ->
  forall s c s', gen_block slot x l s = Some (c, s') -> eff s s'.
Proof.
  intros Hl s c s' H. apply gen_block_inv in H as (s1 & H1 & H2). apply (gen_list_eff l Hl) in H1.
  eauto using eff_trans, eff_scopes.
Qed.
Lemma eff_lab f s : eff s (set_lab f s).
Proof. repeat split. apply extends_refl. Qed.
Lemma gen_assign_eff das l e s c s' : gen_assign slot das l e s = Some (c, s') -> eff s s'.
Proof.
  unfold gen_assign. intros H. apply seq_inv in H as (c1 & s1 & c2 & H1 & H & ->). apply gen_expr_eff in H1 as (A1 & A2 & A3).
  apply seq_inv in H as (c3 & s3 & c4 & H3 & H & ->). apply save_inv in H3 as [-> ->].
  apply seq_inv in H as (c5 & s5 & c6 & H5 & H & ->). apply gen_expr_eff in H5 as (B1 & B2 & B3).
  apply seq_inv in H as (c7 & s7 & c8 & H7 & H & ->). apply restore_inv in H7 as [-> ->].
  apply seq_inv in H as (c9 & s9 & c10 & H9 & H & ->). apply ins_inv in H9 as [-> ->].
  cbn in B1, B2, B3.
  assert (E : eff (set_sp (fun x => x - 1) s5) s').
  { destruct das as [[y t]|]. - now apply add_root_inv in H. - ginv H. apply eff_refl. }
  destruct E as (E1 & E2 & E3). cbn in E1, E2, E3. repeat split; [lia|congruence|eauto using extends_trans].
Qed.
Lemma gen_exit_inv s c s' : gen_exit x s = Some (c, s') -> s' = s /\
  c = [EIns leave []] ++ (if x then [EIns ret []] else
        [EIns popq [OReg rbx]; EIns addq [OImm 8; OReg rbx]; EIns jmp [OMem (Mem rbx None 0 0 true false)]]) ++ [EFlush].
Proof. unfold gen_exit. intros H. destruct x; ginv1 H; subst; auto. Qed.

Lemma gen_stmt_eff st : forall s c s', gen_stmt slot x st s = Some (c, s') -> eff s s'.
Proof.
  induction st using stmt_ind'; intros s0 c0 s0' H0.
  - cbn [gen_stmt] in H0. unfold gen_return in H0. apply seq_inv in H0 as (c1 & s1 & c2 & H1 & H & ->).
    apply gen_exit_inv in H as [-> ->]. destruct e; [eapply gen_expr_eff; eauto|]. ginv H1. apply eff_refl.
  - rewrite gen_stmt_if in H0. apply new_label_inv in H0 as (c1 & -> & H0). apply seq_inv in H0 as (c2 & s2 & c3 & H2 & H0 & ->).
    apply emit_inv in H0 as [-> ->]. apply (eff_trans _ (set_lab S s0)); [apply eff_lab|].
    revert H2. generalize (set_lab S s0) as s. generalize (LGen PIfEnd (g_lab s0)) as ex. intros ex. clear s0.
    revert c2 s2. induction H as [|[c b] bs Hb _ IH]; intros c2 s2 s H2; cbn [gen_branches] in H2.
    + ginv H2. apply eff_refl.
    + cbn [snd] in Hb. destruct c as [c|].
      * apply seq_inv in H2 as (c3 & s3 & c4 & H3 & H2 & ->). apply seq_inv in H2 as (c5 & s5 & c6 & H5 & H2 & ->).
        apply IH in H2. apply gen_expr_eff in H3. ginv1 H5.
        match goal with G : gen_block _ _ _ _ = _ |- _ => apply (gen_block_eff _ Hb) in G; rename G into G1 end.
        subst. eauto using eff_trans, eff_lab.
      * apply seq_inv in H2 as (c3 & s3 & c4 & H3 & H2 & ->). apply IH in H2. apply (gen_block_eff _ Hb) in H3.
        eauto using eff_trans.
  - now apply gen_assign_eff in H0.
  - now apply gen_assign_eff in H0.
  - rewrite gen_stmt_while in H0. ginv1 H0.
    repeat match goal with
    | G : gen_block _ _ _ _ = _ |- _ => apply (gen_block_eff _ H) in G
    | G : gen_expr _ _ _ _ = _ |- _ => apply gen_expr_eff in G
    end. subst. eauto using eff_trans, eff_lab.
  - rewrite gen_stmt_block in H0. eapply gen_block_eff; eauto.
  - cbn [gen_stmt] in H0. eapply gen_expr_eff; eauto.
Qed.
Lemma gen_list_eff' l s c s' : gen_list slot x l s = Some (c, s') -> eff s s'.
Proof. apply gen_list_eff. apply Forall_forall. intros. eapply gen_stmt_eff; eauto. Qed.
Lemma gen_block_eff' l s c s' : gen_block slot x l s = Some (c, s') -> eff s s'.
Proof. apply gen_block_eff. apply Forall_forall. intros. eapply gen_stmt_eff; eauto. Qed.
Lemma gen_branches_eff ex bs : forall s c s', gen_branches slot x ex bs s = Some (c, s') -> eff s s'.
Proof.
  induction bs as [|[c b] bs IH]; intros s c2 s2 H2; cbn [gen_branches] in H2.
  - ginv H2. apply eff_refl.
  - destruct c as [c|].
    + apply seq_inv in H2 as (c3 & s3 & c4 & H3 & H2 & ->). apply seq_inv in H2 as (c5 & s5 & c6 & H5 & H2 & ->).
      apply IH in H2. apply gen_expr_eff in H3. ginv1 H5.
      match goal with G : gen_block _ _ _ _ = _ |- _ => apply gen_block_eff' in G; rename G into G1 end.
      subst. eauto using eff_trans, eff_lab.
    + apply seq_inv in H2 as (c3 & s3 & c4 & H3 & H2 & ->). apply IH in H2. apply gen_block_eff' in H3.
      eauto using eff_trans.
Qed.
End Eff.

(* --------------------------------------------------------------------------- slots *)

(** A list of slots: all different, of different variables counted once, multiples of
    8 above [a] and up to [b]. *)
Definition slots_ok (a b : Z) (l : list (nat * Z)) : Prop :=
  (forall x z, In (x, z) l -> 8 * a < z <= 8 * b /\ z mod 8 = 0) /\ NoDup (map snd l).

Lemma get_slot_in l x : get_slot l x <> 0 -> In (x, get_slot l x) l.
Proof.
  induction l as [|[y z] l IH]; cbn [get_slot]; [lia|]. destruct (Nat.eqb x y) eqn:E.
  - apply Nat.eqb_eq in E. subst. now left.
  - right. auto.
Qed.
Lemma get_slot_inj l x y : NoDup (map snd l) -> get_slot l x <> 0 -> get_slot l x = get_slot l y -> x = y.
Proof.
  intros Hn Hx Hxy. pose proof (get_slot_in l x Hx) as H1. rewrite Hxy in Hx, H1. pose proof (get_slot_in l y Hx) as H2.
  clear Hxy Hx. induction l as [|[a b] l IH]; [destruct H1|]. cbn [map snd] in Hn. apply NoDup_cons_iff in Hn as [Hn1 Hn2].
  revert H1 H2. generalize (get_slot ((a, b) :: l) y) as z. intros z H1 H2.
  assert (Hz : forall u, In (u, z) l -> In z (map snd l)) by (intros u Hu; now apply (in_map snd) in Hu).
  destruct H1 as [H1|H1], H2 as [H2|H2].
  - congruence.
  - injection H1 as -> ->. elim Hn1. eauto.
  - injection H2 as -> ->. elim Hn1. eauto.
  - clear - H1 H2 Hn2. induction l as [|[c d] l IH]; [destruct H1|]. cbn [map snd] in Hn2. apply NoDup_cons_iff in Hn2 as [Hn1 Hn2].
    assert (Hz : forall u, In (u, z) l -> In z (map snd l)) by (intros u Hu; now apply (in_map snd) in Hu).
    destruct H1 as [H1|H1], H2 as [H2|H2].
    + congruence.
    + injection H1 as -> ->. elim Hn1. eauto.
    + injection H2 as -> ->. elim Hn1. eauto.
    + auto.
Qed.

Lemma assign_temps_ok params vars : forall t l a, 0 <= a <= t -> slots_ok a t l ->
  let '(t', l') := assign_temps params vars t l in
  t <= t' <= t + Z.of_nat (List.length vars) /\ slots_ok a t' l' /\
  (forall x, get_slot l x <> 0 -> get_slot l' x <> 0) /\
  (forall x, In x vars -> In x params \/ get_slot l' x <> 0).
Proof.
  induction vars as [|x vars IH]; intros t l a Ha Hl; cbn [assign_temps].
  - cbn. split; [lia|]. split; [exact Hl|]. split; [auto|]. intros x [].
  - destruct (existsb (Nat.eqb x) params || negb (get_slot l x =? 0)) eqn:E.
    + specialize (IH t l a Ha Hl). destruct (assign_temps params vars t l) as [t' l'].
      destruct IH as (I1 & I2 & I3 & I4). split; [cbn [List.length]; lia|]. split; [exact I2|]. split; [exact I3|].
      intros y [<-|Hy]; [|auto]. apply orb_true_iff in E as [E|E].
      * left. apply existsb_exists in E as (z & Hz & Ez). apply Nat.eqb_eq in Ez. now subst.
      * right. apply I3. destruct (get_slot l x =? 0) eqn:G; [discriminate|lia].
    + assert (Hl' : slots_ok a (t + 1) ((x, 8 * (t + 1)) :: l)).
      { destruct Hl as [H1 H2]. split.
        - intros y z [H|H]; [injection H as <- <-; lia|]. apply H1 in H. lia.
        - cbn [map snd]. constructor; [|exact H2]. intros Hc. apply in_map_iff in Hc as ([u z] & Hz & Hin).
          cbn in Hz. apply H1 in Hin. lia. }
      specialize (IH (t + 1) ((x, 8 * (t + 1)) :: l) a ltac:(lia) Hl').
      destruct (assign_temps params vars (t + 1) ((x, 8 * (t + 1)) :: l)) as [t' l'].
      destruct IH as (I1 & I2 & I3 & I4). split; [cbn [List.length]; lia|]. split; [exact I2|].
      assert (Hx : get_slot l' x <> 0). { apply I3. cbn [get_slot]. rewrite Nat.eqb_refl. lia. }
      split.
      * intros y Hy. destruct (Nat.eq_dec y x) as [->|Hne]; [exact Hx|]. apply I3. cbn [get_slot].
        apply Nat.eqb_neq in Hne. now rewrite Hne.
      * intros y [<-|Hy]; auto.
Qed.

Lemma param_slots_ok ps : forall i, 0 <= i -> slots_ok i (i + Z.of_nat (List.length ps)) (param_slots i ps).
Proof.
  induction ps as [|[x t] ps IH]; intros i Hi; cbn [param_slots].
  - split; [intros x z []|constructor].
  - destruct (IH (i + 1) ltac:(lia)) as [H1 H2]. split.
    + intros y z [H|H]; [injection H as <- <-; cbn [List.length]; lia|]. apply H1 in H. cbn [List.length]. lia.
    + cbn [map snd]. constructor; [|exact H2]. intros Hc. apply in_map_iff in Hc as ([u z] & Hz & Hin).
      cbn in Hz. apply H1 in Hin. lia.
Qed.
Lemma param_slots_get ps x : forall i, 0 <= i -> In x (map fst ps) -> get_slot (param_slots i ps) x <> 0.
Proof.
  induction ps as [|[y t] ps IH]; intros i Hi Hx; [destruct Hx|]. cbn [param_slots get_slot].
  destruct (Nat.eqb x y) eqn:E; [lia|]. apply IH; [lia|]. destruct Hx as [Hx|Hx]; [|exact Hx].
  cbn in Hx. subst. rewrite Nat.eqb_refl in E. discriminate.
Qed.

Lemma get_slot_app l1 l2 x : (forall y z, In (y, z) l1 -> z <> 0) ->
  get_slot (l1 ++ l2) x = if get_slot l1 x =? 0 then get_slot l2 x else get_slot l1 x.
Proof.
  induction l1 as [|[y z] l1 IH]; intros H; cbn [app get_slot]; [reflexivity|].
  destruct (Nat.eqb x y).
  - specialize (H y z (or_introl eq_refl)). destruct (z =? 0) eqn:E; [lia|reflexivity].
  - apply IH. intros u v Huv. apply (H u v). now right.
Qed.

(** The slots of a function: one for each parameter and variable, all different. *)
Lemma fn_slots_ok f : let '(t, l) := fn_slots f in
  0 <= t <= Z.of_nat (List.length (f_params f)) + Z.of_nat (List.length (body_vars (f_body f))) /\
  Z.of_nat (List.length (f_params f)) <= t /\
  slots_ok 0 t l /\
  (forall x, In x (map fst (f_params f)) \/ In x (body_vars (f_body f)) -> get_slot l x <> 0) /\
  (forall x, In x (map fst (f_params f)) -> get_slot l x = get_slot (param_slots 0 (f_params f)) x).
Proof.
  unfold fn_slots. set (n := Z.of_nat (List.length (f_params f))).
  pose proof (assign_temps_ok (map fst (f_params f)) (body_vars (f_body f)) n [] n ltac:(lia)) as H.
  assert (H0 : slots_ok n n []) by (split; [intros x z []|constructor]). specialize (H H0).
  destruct (assign_temps _ _ _ _) as [t l]. destruct H as (H1 & (H2 & H3) & _ & H4).
  destruct (param_slots_ok (f_params f) 0 ltac:(lia)) as [P1 P2]. fold n in P1. rewrite Z.add_0_l in P1.
  assert (Hnz : forall y z, In (y, z) (param_slots 0 (f_params f)) -> z <> 0).
  { intros y z H. apply P1 in H. lia. }
  split; [lia|]. split; [lia|]. split; [split|split].
  - intros x z H. apply in_app_or in H as [H|H]; [apply P1 in H; lia|apply H2 in H; lia].
  - rewrite map_app. clear - P1 P2 H2 H3.
    induction (param_slots 0 (f_params f)) as [|[x z] r IH]; cbn [app map snd]; [exact H3|].
    cbn [map snd] in P2. apply NoDup_cons_iff in P2 as [Q1 Q2].
    constructor.
    + intros H. apply in_app_or in H as [H|H]; [auto|]. apply in_map_iff in H as ([u v] & Hv & Hin). cbn in Hv. subst v.
      apply H2 in Hin. specialize (P1 x z (or_introl eq_refl)). lia.
    + apply IH; [|exact Q2]. intros y w Hy. apply (P1 y w). now right.
  - intros x Hx. rewrite get_slot_app by exact Hnz.
    assert (Hp : In x (map fst (f_params f)) -> get_slot (param_slots 0 (f_params f)) x <> 0)
      by (intros Hin; apply param_slots_get; [lia|exact Hin]).
    destruct (get_slot (param_slots 0 (f_params f)) x =? 0) eqn:E; [|lia].
    destruct Hx as [Hx|Hx]; [elim (Hp Hx); lia|].
    destruct (H4 x Hx) as [Hx'|Hx']; [elim (Hp Hx'); lia|exact Hx'].
  - intros x Hx. rewrite get_slot_app by exact Hnz.
    assert (Hp : get_slot (param_slots 0 (f_params f)) x <> 0) by (apply param_slots_get; [lia|exact Hx]).
    destruct (get_slot (param_slots 0 (f_params f)) x =? 0) eqn:E; [lia|reflexivity].
Qed.
