(** When the code generator does not panic: proofs for C57. *)
From Coq Require Import ZArith List Bool String Lia Permutation.
From Verif Require Import X86 GenModel GenSpec GenStatic GenSlots RootSpec RootExpr RootStmt RootFn FitSpec.
Import ListNotations.
Open Scope Z_scope.

Section Slot.
Variable slot : nat -> Z.
Definition near (x : nat) : Prop := -32768 <= - slot x <= 32767.

(* ------------------------------------------------------- what does not panic is fit *)

Definition near_all (l : list nat) : Prop := forall x, In x l -> near x.
Lemma near_app a b : near_all (a ++ b) <-> near_all a /\ near_all b.
Proof. unfold near_all. split; [intros H; split; intros x I; apply H; apply in_or_app; auto|intros [A B] x I; apply in_app_or in I as [I|I]; auto]. Qed.
Lemma args_vars_eq args : (fix args_vars (l : list expr) : list nat := match l with [] => [] | a :: r => expr_vars a ++ args_vars r end) args = flat_map expr_vars args.
Proof. reflexivity. Qed.

Definition busy (ts : list ty) : bool := existsb is_pointer ts.
Definition tidy (s : gst) : Prop := low (g_sp s) (g_roots s).
Definition needs (e : expr) : Prop := forall ta s c s', tidy s -> gen_expr slot e ta s = Some (c, s') -> fit (busy (hd [] (g_reg s))) e /\ near_all (expr_vars e).
Lemma expr_keeps e ta s c s' : tidy s -> gen_expr slot e ta s = Some (c, s') -> g_sp s' = g_sp s /\ g_reg s' = g_reg s /\ g_roots s' = g_roots s /\ tidy s'.
Proof.
  intros T H. destruct (gen_expr_eff _ _ _ _ _ _ H) as (A & B & _). destruct (gen_expr_tells slot (g_sp s) e ta s c s' (conj (Z.le_refl _) T) H) as (_ & C & _).
  repeat split; auto. unfold tidy. rewrite A, C. exact T.
Qed.
Lemma busy_app a b : busy (a ++ b) = busy a || busy b.
Proof. apply existsb_app. Qed.
Lemma args_need args : Forall needs args ->
  forall fi i s c s' us rest, tidy s -> g_reg s = us :: rest -> gen_args slot fi i args s = Some (c, s') -> 
  fit_args (busy us) args /\ (args = [] \/ i + List.length args <= 6)%nat /\ near_all (flat_map expr_vars args).
Proof.
  induction 1 as [|a args Ha _ IH]; intros fi i s c s' us rest T G H; cbn [gen_args flat_map] in *.
  - split; [constructor|]. split; [auto|]. intros x [].
  - apply seq_inv in H as (c1 & s1 & c2 & H1 & H & ->). apply seq_inv in H as (c3 & s3 & c4 & H3 & H & ->).
    pose proof (expr_keeps _ _ _ _ _ T H1) as (A1 & A2 & A3 & A4). apply Ha in H1 as [F N]; [|exact T]. 
    pose proof (pass_arg_does _ _ _ _ _ _ H3) as (_ & _ & B & _). apply pass_arg_inv in H3 as (r & E & _ & C1 & C2 & _).
    unfold in_use_types in C2. rewrite A2, G in C2. cbn [hd tl] in C2.
    apply IH with (us := us ++ [typ a]) (rest := rest) in H as (Fs & L & Ns); [|unfold tidy; rewrite C1, B; exact A4|exact C2].
    assert (i < 6)%nat by (change 6%nat with (List.length arg_regs); apply nth_error_Some; congruence).
    rewrite G in F. rewrite busy_app in Fs. cbn in Fs. rewrite orb_false_r in Fs.
    split; [constructor; auto|]. split; [right; destruct L as [->|L]; cbn in *; lia|]. apply near_app; auto.
Qed.
Lemma call_need args fi cl s c s' : Forall needs args -> (match cl with CSaved => low (g_sp s - 1) (g_roots s) | _ => tidy s end) ->
  seq spill_registers (seq (gen_args slot fi 0 args) (finish_call fi cl)) s = Some (c, s') ->
  fit_args false args /\ (List.length args <= 6)%nat /\ near_all (flat_map expr_vars args) /\ 
  match cl with CSlot a => -32768 <= - a <= 32767 | CSaved => busy (hd [] (g_reg s)) = false | _ => True end.
Proof.
  intros IH T0 H. assert (T : tidy s) by (destruct cl; auto; eapply low_weaken; [|exact T0]; lia).
  apply seq_inv in H as (c1 & s1 & c2 & H1 & H & ->). apply seq_inv in H as (c3 & s3 & c4 & H3 & H & ->).
  pose proof (spill_registers_inv _ _ _ H1) as (_ & S1 & S2 & S3 & _).
  assert (R1 : g_roots s1 = g_roots s ++ spilled (g_sp s) (in_use_types s)).
  { clear - H1. unfold spill_registers, in_use_types in *. destruct (g_reg s) as [|ts r] eqn:Er; ginv1 H1; subst.
    - cbn. rewrite app_nil_r. auto.
    - apply spill_does in G. apply G. }
  assert (T1 : tidy s1).
  { unfold tidy. rewrite R1, S2. apply Forall_app. split; [eapply low_weaken; [|exact T]; lia|apply spilled_low]. }
  destruct (args_need _ IH _ _ _ _ _ _ _ T1 S3 H3) as (F & L & N). 
  split; auto. split; [destruct L as [->|L]; cbn in *; lia|]. split; auto.
  assert (R3 : g_roots s3 = g_roots s1).
  { refine (proj1 (proj2 (gen_args_does slot (g_sp s1) args _ fi 0%nat s1 c3 s3 (conj (Z.le_refl _) T1) H3))). apply Forall_forall. intros e _. apply gen_expr_tells. }
  assert (IHe : Forall (fun e => forall ta s c s', gen_expr slot e ta s = Some (c, s') -> eff s s') args) by (apply Forall_forall; intros e _; apply gen_expr_eff).
  pose proof (gen_args_eff _ _ IHe _ _ _ _ _ H3) as (S4 & S5 & _).
  destruct cl; [exact I| |].
  - apply finish_call_inv in H as (gc & _ & A & _). exact A.
  - apply (finish_does slot (g_sp s)) in H as (c5 & s5 & c6 & -> & _ & [F2 F3] & F4 & F5 & H).
    unfold restore_registers in H. apply seq_inv in H as (c7 & s7 & c8 & H7 & H & ->). ginv1 H7. subst.
    cbn [g_reg set_reg] in H. rewrite F5, S5, S3 in H. cbn [tl] in H. unfold in_use_types in *.
    destruct (g_reg s) as [|ts r] eqn:Er; [reflexivity|]. cbn [hd] in *.
    assert (Hno : Forall (fun t => is_pointer t = false) ts).
    { eapply (unspill_shifted _ _ _ _ _ (g_sp s - 1)) in H; [exact H|cbn [g_sp set_reg]; lia|].
      cbn [g_roots set_reg]. rewrite F2, R3, R1. intros o u Ho Hb. apply in_app_or in Ho as [Ho|Ho].
      - unfold low in T0. rewrite Forall_forall in T0. apply T0 in Ho. cbn [fst] in Ho. lia.
      - apply spilled_where in Ho as (k & K1 & K2 & K3). destruct k as [|k]; [lia|]. exists k, u. split; [exact K1|]. split; [exact K2|]. lia. }
    clear -Hno. induction Hno as [|t ts Ht _ IH]; cbn; auto. rewrite Ht. exact IH.
Qed.

Ltac sub_expr :=
  match goal with
  | IH : needs ?e, G : gen_expr _ ?e _ ?s = Some _ |- _ =>
      let T := fresh "T" in 
      assert (T : tidy s) by (unfold tidy in *; cbn [g_sp g_roots set_sp set_lab] in *;
        repeat match goal with E : g_roots ?x = _ |- low _ (g_roots ?x) => rewrite E end; repeat match goal with E : g_sp ?x = _ |- low (g_sp ?x) _ => rewrite E end;
        eapply low_weaken; [|eassumption]; lia);
      let F := fresh "F" in let N := fresh "N" in 
      destruct (IH _ _ _ _ T G) as [F N];
      let A := fresh "A" in let B := fresh "B" in let C := fresh "C" in let D := fresh "D" in
      destruct (expr_keeps _ _ _ _ _ T G) as (A & B & C & D); clear G;
      cbn [g_reg g_sp g_roots set_sp set_lab] in *; 
      repeat match goal with E : g_reg ?x = _ |- _ => rewrite E in F; clear E || rewrite E in * end
  end.
Lemma expr_need e : needs e.
Proof.
  induction e using expr_ind'; intros ta s0 c0 s0' T0 H0.
  all: try (rewrite gen_expr_call in H0; cbn [expr_vars]; rewrite args_vars_eq; apply call_need in H0 as (F & L & N & _); [|assumption|assumption]; split; [constructor|]; auto; fail).
  all: try (rewrite gen_expr_call_var in H0; cbn [expr_vars]; rewrite args_vars_eq; apply call_need in H0 as (F & L & N & D); [|assumption|assumption]; split; [constructor; auto|];
    intros y [<-|I]; [exact D|auto]; fail).
  all: try (rewrite gen_expr_call_expr in H0; cbn [expr_vars]; rewrite args_vars_eq; apply seq_inv in H0 as (c1 & s1 & c2 & H1 & H0 & ->); apply seq_inv in H0 as (c3 & s3 & c4 & H3 & H0 & ->);
    pose proof (expr_keeps _ _ _ _ _ T0 H1) as (A & B & C & D); apply IHe in H1 as [F1 N1]; [|exact T0]; apply save_inv in H3 as [-> ->];
    apply call_need in H0 as (F & L & N & K); [|assumption|cbn; eapply low_weaken; [|exact D]; lia]; cbn in K; rewrite B in K;
    split; [constructor; auto|]; apply near_app; auto; fail).
  all: cbn [gen_expr expr_vars] in *.
  all: try (destruct op).
  all: try (destruct b; ginv H0; split; [constructor|intros y []]; fail).
  all: try solve [ ginv H0; split; [constructor; auto|intros y []] ].
  all: try solve [ ginv H0; repeat sub_expr; split; [constructor; auto|]; rewrite ?near_app; auto; intros y Iy; destruct Iy as [<-|[]]; auto ].
  2: { ginv H0. repeat match goal with G : gen_expr _ ?e _ ?x = Some _, N : needs ?e, T : tidy ?y |- _ =>
         match goal with
         | _ => let T' := fresh "T" in assert (T' : tidy x) by exact T; pose proof (N _ _ _ _ T' G) as [? ?]; pose proof (expr_keeps _ _ _ _ _ T' G) as (? & ? & ? & ?); clear G
         end end.
    cbn [g_reg set_lab] in *. repeat match goal with E : g_reg _ = _ |- _ => rewrite E in *; clear E end. split; [constructor; auto|]. rewrite !near_app. auto. }
  ginv H0. destruct (_ || _) eqn:B in G; [ginv G|]. split; [constructor; [assumption|lia]|intros y []].
Qed.

(* ---------------------------------------------------------- what is fit does not panic *)

Definition small (s : gst) : Prop := (List.length (hd [] (g_reg s)) <= 6)%nat.
(** The state is as before, but for labels, literals and maps; the order of the roots does not
    matter. *)
Definition like (s s' : gst) : Prop := g_sp s' = g_sp s /\ g_reg s' = g_reg s /\ Permutation (g_roots s') (g_roots s) /\ g_scopes s' = g_scopes s.
Definition runs (g : gst -> option (list event * gst)) (s : gst) (Q : gst -> Prop) : Prop := exists c s', g s = Some (c, s') /\ Q s'.
Lemma run_seq a b s (Q R : gst -> Prop) : runs a s Q -> (forall s', Q s' -> runs b s' R) -> runs (seq a b) s R.
Proof. intros (c & s' & E & H) B. destruct (B s' H) as (c2 & s2 & E2 & H2). exists (c ++ c2), s2. unfold seq. rewrite E, E2. auto. Qed.
Lemma run_this g s c s' (Q : gst -> Prop) : g s = Some (c, s') -> Q s' -> runs g s Q.
Proof. intros E H; exists c, s'; auto. Qed.
Lemma run_ins i o s (Q : gst -> Prop) : Q s -> runs (ins i o) s Q.
Proof. intros H; eapply run_this; [reflexivity|auto]. Qed.
Lemma run_mod f s (Q : gst -> Prop) : Q (f s) -> runs (modify f) s Q.
Proof. intros H; eapply run_this; [reflexivity|auto]. Qed.
Lemma run_weak g s (Q R : gst -> Prop) : runs g s Q -> (forall s', Q s' -> R s') -> runs g s R.
Proof. intros (c & s' & E & H) I. exists c, s'; auto. Qed.
Lemma like_refl s : like s s.
Proof. repeat split; auto. Qed.
Lemma like_trans a b c : like a b -> like b c -> like a c.
Proof. intros (?&?&?&?) (?&?&?&?). repeat split; try congruence. eapply Permutation_trans; eauto. Qed.

Lemma reg_there i : (i < 6)%nat -> exists r, nth_error arg_regs i = Some r.
Proof. clear slot. intros L. destruct (nth_error arg_regs i) eqn:E; eauto. apply nth_error_None in E. cbn in E. lia. Qed.

(** The roots that spilling adds, from the last to the first. *)
Fixpoint added (sp : Z) (ts : list ty) : list (Z * ty) :=
  match ts with
  | [] => []
  | t :: rest => added sp rest ++ (if is_pointer t then [((sp + Z.of_nat (List.length rest) + 1) * 8, t)] else [])
  end.
Lemma run_spill ts : forall i s, (i + List.length ts <= 6)%nat ->
  runs (spill i ts) s (fun s' => g_sp s' = g_sp s + Z.of_nat (List.length ts) /\ g_reg s' = g_reg s /\ g_roots s' = g_roots s ++ added (g_sp s) ts /\ g_scopes s' = g_scopes s).
Proof.
  induction ts as [|t ts IH]; intros i s L; cbn [spill List.length added] in *.
  - eapply run_this; [reflexivity|]. rewrite app_nil_r. repeat split; lia.
  - eapply run_seq; [apply IH; lia|]. intros s1 (A & B & C & D). destruct (reg_there i ltac:(lia)) as (r & E).
    eapply run_seq; [unfold with_reg; rewrite E; apply run_ins; exact (eq_refl s1)|]. intros s2 <-.
    eapply run_seq; [apply run_mod; exact (eq_refl _)|]. intros s3 <-.
    unfold add_root. destruct (is_pointer t).
    + eapply run_this; [reflexivity|]. cbn. rewrite A, B, C, D, <- app_assoc. repeat split; try lia.
    + eapply run_this; [reflexivity|]. cbn. rewrite A, B, C, D, app_nil_r. repeat split; lia.
Qed.
Lemma drop_there off t l : In (off, t) l -> exists l', drop_root off t l = Some l' /\ Permutation l ((off, t) :: l').
Proof.
  induction l as [|[o u] l IH]; intros I; [destruct I|]. cbn.
  destruct ((o =? off) && kind_eqb (ty_kind u) (ty_kind t) && Nat.eqb (ty_id u) (ty_id t)) eqn:E.
  - exists l. split; auto. apply andb_true_iff in E as [E E3]. apply andb_true_iff in E as [E1 E2]. apply Z.eqb_eq in E1. apply Nat.eqb_eq in E3.
    assert (u = t) as -> by (destruct u as [k1 i1], t as [k2 i2]; cbn in *; subst; destruct k1, k2; (reflexivity || discriminate)). subst. auto.
  - destruct I as [I|I].
    + injection I as -> ->. rewrite Z.eqb_refl, Nat.eqb_refl in E. destruct t as [k i]; cbn in E; destruct k; discriminate.
    + destruct (IH I) as (l' & -> & P). exists ((o, u) :: l'). split; auto. rewrite P. apply perm_swap.
Qed.
Lemma run_unspill ts : forall i s sp rs, (i + List.length ts <= 6)%nat -> g_sp s = sp + Z.of_nat (List.length ts) -> Permutation (g_roots s) (rs ++ added sp ts) ->
  runs (unspill i ts) s (fun s' => g_sp s' = sp /\ g_reg s' = g_reg s /\ Permutation (g_roots s') rs /\ g_scopes s' = g_scopes s).
Proof.
  induction ts as [|t ts IH]; intros i s sp rs L S P; cbn [unspill List.length added] in *.
  - eapply run_this; [reflexivity|]. rewrite app_nil_r in P. repeat split; auto; lia.
  - destruct (reg_there i ltac:(lia)) as (r & E). eapply run_seq; [unfold with_reg; rewrite E; apply run_ins; exact (eq_refl s)|]. intros s1 <-.
    assert (R : runs (remove_root (g_sp s * 8) t) s (fun s' => g_sp s' = g_sp s /\ g_reg s' = g_reg s /\ g_scopes s' = g_scopes s /\ Permutation (g_roots s') (rs ++ added sp ts))).
    { unfold runs, remove_root. destruct (is_pointer t).
      - destruct (drop_there (g_sp s * 8) t (g_roots s)) as (l' & -> & Q).
        { eapply Permutation_in; [apply Permutation_sym; exact P|]. apply in_or_app; right. apply in_or_app; right. left. f_equal. lia. }
        eexists _, _. split; [reflexivity|]. cbn. repeat split; auto.
        apply (Permutation_cons_inv (a := (g_sp s * 8, t))). rewrite <- Q, P. rewrite app_assoc. rewrite <- Permutation_cons_append.
        replace ((sp + Z.of_nat (List.length ts) + 1) * 8) with (g_sp s * 8) by lia. apply Permutation_refl.
      - eexists _, _. split; [reflexivity|]. rewrite app_nil_r in P. auto. }
    eapply run_seq; [exact R|]. intros s1 (A & B & C & D). eapply run_seq; [apply run_mod; exact (eq_refl _)|]. intros s2 <-.
    eapply run_weak; [eapply (IH (Datatypes.S i) _ sp rs); cbn; [lia|lia|exact D]|]. cbn. intros s' (? & ? & ? & ?). repeat split; congruence || auto.
Qed.


Definition runs_well (e : expr) : Prop := forall ta s, fit (busy (hd [] (g_reg s))) e -> near_all (expr_vars e) -> small s -> runs (gen_expr slot e ta) s (like s).
Lemma run_pass fi i t s us rest : (i < 6)%nat -> g_reg s = us :: rest ->
  runs (pass_arg fi i t) s (fun s' => g_sp s' = g_sp s /\ g_reg s' = (us ++ [t]) :: rest /\ g_roots s' = g_roots s /\ g_scopes s' = g_scopes s).
Proof.
  intros L G. destruct (reg_there i L) as (r & E). unfold pass_arg, with_reg. rewrite E.
  eapply run_seq; [apply run_ins; exact (eq_refl s)|]. intros s1 <-.
  eapply run_seq; [unfold register_in_use; eapply run_this; [rewrite G; reflexivity|exact (eq_refl _)]|]. intros s1 <-.
  destruct (fi_external fi && fi_raw fi); [destruct (ty_kind t)|]; (eapply run_this; [reflexivity|cbn; auto]).
Qed.
Lemma run_args args : Forall runs_well args -> near_all (flat_map expr_vars args) ->
  forall fi i s us rest, fit_args (busy us) args -> (i + List.length args <= 6)%nat -> (List.length us = i)%nat -> g_reg s = us :: rest ->
  runs (gen_args slot fi i args) s (fun s' => g_sp s' = g_sp s /\ tl (g_reg s') = rest /\ g_reg s' <> [] /\ Permutation (g_roots s') (g_roots s) /\ g_scopes s' = g_scopes s).
Proof.
  induction 1 as [|a args Ha _ IH]; intros N fi i s us rest F L U G; cbn [gen_args flat_map List.length] in *.
  - eapply run_this; [reflexivity|]. rewrite G. repeat split; auto. discriminate.
  - inversion F; subst. apply near_app in N as [N1 N2]. eapply run_seq; [apply Ha; auto; unfold small; rewrite G; cbn; auto; lia|]. intros s1 (A & B & C & D).
    eapply run_seq; [eapply run_pass; [lia|rewrite B; exact G]|]. intros s2 (A2 & B2 & C2 & D2).
    eapply run_weak; [apply (IH N2 fi _ s2 (us ++ [typ a]) rest); [rewrite busy_app; cbn; rewrite orb_false_r; assumption|lia|rewrite app_length; cbn; lia|exact B2]|].
    intros s3 (? & ? & ? & P & ?). repeat split; try congruence. rewrite P, C2. exact C.
Qed.
Lemma run_spill_registers s : small s ->
  runs spill_registers s (fun s' => g_sp s' = g_sp s + Z.of_nat (List.length (hd [] (g_reg s))) /\ g_reg s' = [] :: g_reg s /\ 
    g_roots s' = g_roots s ++ added (g_sp s) (hd [] (g_reg s)) /\ g_scopes s' = g_scopes s).
Proof.
  intros H. unfold small, spill_registers in *. unfold runs. destruct (g_reg s) as [|ts r] eqn:G; cbn [hd] in *.
  - eexists _, _. split; [reflexivity|]. cbn. rewrite G, app_nil_r. repeat split; lia.
  - destruct (run_spill ts 0%nat s ltac:(lia)) as (c & s' & E & A & B & C & D). unfold seq. rewrite E. eexists _, _. split; [reflexivity|]. cbn. rewrite B, G. auto.
Qed.
Lemma run_finish fi cl s xs rest sp rs : g_reg s = xs :: rest -> (List.length (hd [] rest) <= 6)%nat -> 
  g_sp s = sp + Z.of_nat (List.length (hd [] rest)) + (match cl with CSaved => 1 | _ => 0 end) -> Permutation (g_roots s) (rs ++ added sp (hd [] rest)) ->
  (match cl with CSlot a => -32768 <= - a <= 32767 | _ => True end) ->
  runs (finish_call fi cl) s (fun s' => g_sp s' = sp /\ g_reg s' = rest /\ Permutation (g_roots s') rs /\ g_scopes s' = g_scopes s).
Proof.
  intros G L S P N. unfold finish_call.
  eapply run_seq with (Q := eq s); [destruct (fi_variadic fi); eapply run_this; reflexivity|]. intros s1 <-.
  eapply run_seq with (Q := fun s' => g_sp s' = sp + Z.of_nat (List.length (hd [] rest)) /\ g_reg s' = g_reg s /\ g_roots s' = g_roots s /\ g_scopes s' = g_scopes s).
  { destruct cl; (eapply run_this; [reflexivity|]); cbn; repeat split; lia. }
  intros s1 (A & B & C & D). rewrite <- C in P. rewrite <- B in G. rewrite <- D. clear dependent s. rename s1 into s.
  eapply run_seq with (Q := eq s); [unfold runs; destruct (sp_aligned s); eexists _, _; split; reflexivity|]. intros s1 <-.
  eapply run_seq with (Q := eq s).
  { destruct cl; try (eapply run_this; reflexivity). unfold displace. destruct (_ || _) eqn:E; [lia|]. eapply run_this; reflexivity. }
  intros s1 <-. eapply run_seq with (Q := eq s); [destruct (fi_external fi && fi_raw fi && kind_eqb (fi_ret fi) TInteger); eapply run_this; reflexivity|]. intros s1 <-.
  eapply run_seq with (Q := fun s' => g_sp s' = g_sp s /\ g_reg s' = g_reg s /\ g_roots s' = g_roots s /\ g_scopes s' = g_scopes s).
  { destruct (fi_external fi); [eapply run_this; [reflexivity|auto]|]. unfold runs, gc_map. destruct (g_roots s) eqn:R; eexists _, _; (split; [reflexivity|cbn; auto]). }
  intros s1 (A1 & B1 & C1 & D1). rewrite <- C1 in P. rewrite <- B1 in G. rewrite <- A1 in A. rewrite <- D1. clear dependent s. rename s1 into s.
  eapply run_seq with (Q := eq s); [unfold runs; destruct (sp_aligned s); eexists _, _; split; reflexivity|]. intros s1 <-.
  unfold restore_registers. eapply run_seq; [apply run_mod; exact (eq_refl _)|]. intros s1 <-. unfold runs. cbn. rewrite G. cbn [tl].
  destruct rest as [|ts rest]; cbn [hd added List.length] in *.
  - eexists _, _. split; [reflexivity|]. cbn. rewrite G. rewrite app_nil_r in P. repeat split; auto; lia.
  - destruct (run_unspill ts 0%nat (set_reg (tl (A:=list ty)) s) sp rs L A P) as (c & s' & E & I1 & I2 & I3 & I4). exists c, s'. split; [exact E|].
    cbn in I2, I4. rewrite G in I2. auto.
Qed.
Lemma added_none ts : busy ts = false -> forall sp, added sp ts = [].
Proof. induction ts as [|t ts IH]; intros H sp; cbn in *; auto. apply orb_false_iff in H as [-> H]. now rewrite IH. Qed.
Lemma run_call args fi cl s : Forall runs_well args -> fit_args false args -> near_all (flat_map expr_vars args) -> (List.length args <= 6)%nat -> small s ->
  (match cl with CSlot a => -32768 <= - a <= 32767 | CSaved => busy (hd [] (g_reg s)) = false | _ => True end) ->
  runs (seq spill_registers (seq (gen_args slot fi 0 args) (finish_call fi cl))) s
    (fun s' => g_sp s' = g_sp s - (match cl with CSaved => 1 | _ => 0 end) /\ g_reg s' = g_reg s /\ Permutation (g_roots s') (g_roots s) /\ g_scopes s' = g_scopes s).
Proof.
  intros W F N L S K. eapply run_seq; [apply run_spill_registers; exact S|]. intros s1 (A & B & C & D).
  eapply run_seq; [apply (run_args args W N fi 0%nat s1 [] (g_reg s)); [exact F|lia|auto|exact B]|]. intros s2 (A2 & B2 & B3 & C2 & D2).
  destruct (g_reg s2) as [|xs rest] eqn:G2; [destruct (B3 eq_refl)|]. cbn in B2. subst rest.
  eapply run_weak; [eapply (run_finish fi cl s2 xs (g_reg s) (g_sp s - match cl with CSaved => 1 | _ => 0 end) (g_roots s)); [exact G2|exact S| | |]|].
  - destruct cl; lia.
  - rewrite C2, C. destruct cl; [rewrite Z.sub_0_r; auto..|]. rewrite !added_none by exact K. auto.
  - destruct cl; auto.
  - cbn. intros s' (P1 & P2 & P3 & P4). rewrite P4, D2. auto.
Qed.

(** The state is as before, but for the height of the stack. *)
Definition near_like (k : Z) (s s' : gst) : Prop := g_sp s' = g_sp s + k /\ g_reg s' = g_reg s /\ Permutation (g_roots s') (g_roots s) /\ g_scopes s' = g_scopes s.
Lemma near_refl s : near_like 0 s s.
Proof. repeat split; auto; lia. Qed.
Lemma near_like_like s s' : near_like 0 s s' -> like s s'.
Proof. intros (A & B & C & D). repeat split; auto; lia. Qed.
Lemma nl_ins i o k s s' : near_like k s s' -> runs (ins i o) s' (near_like k s).
Proof. intros H. apply run_ins; exact H. Qed.
Lemma nl_emit e k s s' : near_like k s s' -> runs (emit e) s' (near_like k s).
Proof. intros H. eapply run_this; [reflexivity|exact H]. Qed.
Lemma nl_nop k s s' : near_like k s s' -> runs nop s' (near_like k s).
Proof. intros H. eapply run_this; [reflexivity|exact H]. Qed.
Lemma nl_save r k s s' : near_like k s s' -> runs (save r) s' (near_like (k + 1) s).
Proof. intros (A & B & C & D). eapply run_this; [reflexivity|]. cbn. repeat split; auto. cbn. lia. Qed.
Lemma nl_restore r k s s' : near_like k s s' -> runs (restore r) s' (near_like (k - 1) s).
Proof. intros (A & B & C & D). eapply run_this; [reflexivity|]. cbn. repeat split; auto. cbn. lia. Qed.
Lemma nl_tag t r k s s' : t = TInteger -> near_like k s s' -> runs (tag_as t r) s' (near_like k s).
Proof. intros -> H. eapply run_this; [reflexivity|exact H]. Qed.
Lemma nl_untag t r k s s' : t = TInteger -> near_like k s s' -> runs (untag_as t r) s' (near_like k s).
Proof. intros -> H. eapply run_this; [reflexivity|exact H]. Qed.
Lemma nl_label p f k s s' : near_like k s s' -> (forall l s'', near_like k s s'' -> runs (f l) s'' (near_like k s)) -> runs (new_label p f) s' (near_like k s).
Proof.
  intros H W. assert (H' : near_like k s (set_lab S s')) by exact H. destruct (W (LGen p (g_lab s')) _ H') as (c & s2 & E & Q).
  unfold runs, new_label, seq, emit. rewrite E. eauto.
Qed.
Lemma nl_sub e ta k s s' : near_like k s s' -> runs_well e -> fit (busy (hd [] (g_reg s))) e -> near_all (expr_vars e) -> small s -> runs (gen_expr slot e ta) s' (near_like k s).
Proof.
  intros (A & B & C & D) W F N S. eapply run_weak; [apply W; [rewrite B; exact F|exact N|unfold small; rewrite B; exact S]|].
  intros s2 (A2 & B2 & C2 & D2). repeat split; try congruence. rewrite C2. exact C.
Qed.
Ltac walk :=
  match goal with
  | |- runs (seq _ _) _ _ => eapply run_seq; [walk|intros ? ?; walk]
  | |- runs (new_label _ _) _ _ => eapply nl_label; [eassumption|intros ? ? ?; walk]
  | |- runs (gen_expr _ _ _) _ _ => eapply nl_sub; [eassumption|assumption|assumption|assumption|assumption]
  | |- runs (save _) _ _ => eapply nl_save; eassumption
  | |- runs (restore _) _ _ => eapply nl_restore; eassumption
  | |- runs (tag_as _ _) _ _ => eapply nl_tag; [assumption || reflexivity|eassumption]
  | |- runs (untag_as _ _) _ _ => eapply nl_untag; [assumption || reflexivity|eassumption]
  | |- runs (ins _ _) _ _ => eapply nl_ins; eassumption
  | |- runs (emit _) _ _ => eapply nl_emit; eassumption
  | |- runs nop _ _ => eapply nl_nop; eassumption
  end.
Lemma nl_end g s k : runs g s (near_like k s) -> k = 0 -> runs g s (like s).
Proof. intros H ->. eapply run_weak; [exact H|apply near_like_like]. Qed.
Lemma run_expr e : runs_well e.
Proof.
  induction e using expr_ind'; intros ta s0 F N S; pose proof (near_refl s0) as L; inversion F; subst; clear F.
  all: try (rewrite gen_expr_call; cbn [expr_vars] in N; rewrite args_vars_eq in N; eapply run_weak; [apply run_call; auto|]; 
    cbn; intros s' (P1 & P2 & P3 & P4); repeat split; auto; lia).
  all: try (rewrite gen_expr_call_var; cbn [expr_vars] in N; rewrite args_vars_eq in N; eapply run_weak; [apply run_call; auto; [intros y Iy; apply N; right; exact Iy|apply N; left; reflexivity]|]; 
    cbn; intros s' (P1 & P2 & P3 & P4); repeat split; auto; lia).
  all: try (rewrite gen_expr_call_expr; cbn [expr_vars] in N; rewrite args_vars_eq in N; apply near_app in N as [N1 N2];
    eapply run_seq; [apply IHe; auto; cbn [hd]; congruence|]; intros s1 L1; eapply run_seq; [eapply run_this; [reflexivity|exact (eq_refl _)]|]; intros s2 <-; destruct L1 as (A1 & B1 & C1 & D1);
    eapply run_weak; [apply run_call; auto; [unfold small; cbn; rewrite B1; exact S|cbn; rewrite B1; auto]|]; cbn; intros s' (P1 & P2 & P3 & P4); repeat split; try congruence; [lia|rewrite P3; exact C1]).
  all: cbn [gen_expr expr_vars] in *; rewrite ?near_app in N; repeat match goal with K : _ /\ _ |- _ => destruct K end.
  all: unfold int in *.
  all: try (destruct op).
  all: try solve [eapply nl_end; [walk|reflexivity]].
  - eapply nl_end; [|reflexivity]. eapply run_seq; [|intros s1 L1; eapply nl_tag; [assumption|exact L1]].
    destruct (_ || _) eqn:E; [lia|]. clear E. destruct ((z >? _) || _); apply nl_ins; exact L.
  - unfold runs, string_lit. destruct (find_lit _ _ _); (eexists _, _; split; [reflexivity|repeat split; auto]).
  - eapply nl_end; [|reflexivity]. eapply run_seq; [walk|intros s1 L1]. eapply run_seq; [walk|intros s2 L2]. unfold tag_for.
    match goal with K : knd _ = TInteger |- _ => rewrite K end. walk.
  - eapply nl_end; [|reflexivity]. assert (K : near x) by (apply N; left; reflexivity). unfold near in K. unfold displace. destruct (_ || _) eqn:E; [lia|]. walk.
  - eapply nl_end; [|reflexivity]. destruct b; walk.
Qed.

(* ------------------------------------------------------------------------- statements *)

Section Stmt.
Variable xr : bool.
Fixpoint branches_vars (bs : list (option expr * list stmt)) : list nat :=
  match bs with
  | [] => []
  | (c, b) :: r => (match c with Some e => expr_vars e | None => [] end) ++ list_vars b ++ branches_vars r
  end.
Lemma vars_if bs : stmt_vars (SIf bs) = branches_vars bs.
Proof. reflexivity. Qed.
Lemma vars_while c b : stmt_vars (SWhile c b) = expr_vars c ++ list_vars b.
Proof. reflexivity. Qed.
Lemma vars_block b : stmt_vars (SBlock b) = list_vars b.
Proof. reflexivity. Qed.

(** Outside of calls; what is inside of a scope stays there. *)
Definition after_stmt (s s' : gst) : Prop := g_reg s' = [] /\ (g_scopes s <> [] -> g_scopes s' <> []).
Lemma run_top e ta s : fit false e -> near_all (expr_vars e) -> g_reg s = [] -> runs (gen_expr slot e ta) s (after_stmt s).
Proof.
  intros F N G. eapply run_weak; [apply run_expr; [rewrite G; exact F|exact N|unfold small; rewrite G; cbn; lia]|].
  intros s' (A & B & C & D). split; congruence.
Qed.
Lemma after_refl s : g_reg s = [] -> after_stmt s s.
Proof. intros H. split; auto. Qed.
Lemma after_trans a b c : after_stmt a b -> after_stmt b c -> after_stmt a c.
Proof. intros [A B] [C D]. split; auto. Qed.
Lemma run_both a b s : runs a s (after_stmt s) -> (forall s', g_reg s' = [] -> runs b s' (after_stmt s')) -> runs (seq a b) s (after_stmt s).
Proof. intros A B. eapply run_seq; [exact A|]. intros s' H. eapply run_weak; [apply B; apply H|]. intros s2 H2. eapply after_trans; eauto. Qed.
Lemma run_some_ins i o s : g_reg s = [] -> runs (ins i o) s (after_stmt s).
Proof. intros H. apply run_ins. apply after_refl; auto. Qed.
Lemma run_some_event e s : g_reg s = [] -> runs (emit e) s (after_stmt s).
Proof. intros H. eapply run_this; [reflexivity|]. apply after_refl; auto. Qed.
Lemma run_nop s : g_reg s = [] -> runs nop s (after_stmt s).
Proof. intros H. eapply run_this; [reflexivity|]. apply after_refl; auto. Qed.
Lemma run_label p f s : g_reg s = [] -> (forall l s', g_reg s' = [] -> runs (f l) s' (after_stmt s')) -> runs (new_label p f) s (after_stmt s).
Proof.
  intros H W. destruct (W (LGen p (g_lab s)) (set_lab S s) H) as (c & s2 & E & Q).
  unfold runs, new_label, seq, emit. rewrite E. eauto.
Qed.
Lemma run_exit s : g_reg s = [] -> runs (gen_exit xr) s (after_stmt s).
Proof. intros H. unfold gen_exit. destruct xr; (eapply run_this; [reflexivity|apply after_refl; auto]). Qed.
Lemma run_assign das l e s : fit false l -> fit false e -> near_all (expr_vars l) -> near_all (expr_vars e) -> g_reg s = [] -> runs (gen_assign slot das l e) s (after_stmt s).
Proof.
  intros Fl Fe Nl Ne G. unfold gen_assign. apply run_both; [apply run_top; auto|]. intros s1 G1. 
  apply run_both; [eapply run_this; [reflexivity|split; auto]|]. intros s2 G2. apply run_both; [apply run_top; auto|]. intros s3 G3.
  apply run_both; [eapply run_this; [reflexivity|split; auto]|]. intros s4 G4. apply run_both; [apply run_some_ins; auto|]. intros s5 G5.
  destruct das as [[x t]|]; [|apply run_nop; auto]. unfold add_root. destruct (is_pointer t); (eapply run_this; [reflexivity|split; auto]).
Qed.

Definition stmt_runs (st : stmt) : Prop := forall s, fit_stmt st -> near_all (stmt_vars st) -> g_reg s = [] -> runs (gen_stmt slot xr st) s (after_stmt s).
Lemma run_list l : Forall stmt_runs l -> (forall st, In st l -> fit_stmt st) -> near_all (list_vars l) -> forall s, g_reg s = [] -> runs (gen_list slot xr l) s (after_stmt s).
Proof.
  induction 1 as [|st l H _ IH]; intros F N s G; cbn [gen_list list_vars] in *; [apply run_nop; auto|].
  apply near_app in N as [N1 N2]. apply run_both; [apply H; auto; apply F; left; auto|]. apply IH; auto. intros st' I; apply F; right; auto.
Qed.
Lemma run_block l s : Forall stmt_runs l -> (forall st, In st l -> fit_stmt st) -> near_all (list_vars l) -> g_reg s = [] -> runs (gen_block slot xr l) s (after_stmt s).
Proof.
  intros H F N G. unfold gen_block. eapply run_seq; [eapply run_this; [reflexivity|exact (eq_refl _)]|]. intros s1 <-.
  eapply run_seq; [apply run_list; auto|]. intros s2 [A B]. cbn in B. unfold runs, close_scope. destruct (g_scopes s2) as [|n r] eqn:E; [destruct B; [discriminate|reflexivity]|].
  eexists _, _. split; [reflexivity|]. split; cbn; [exact A|rewrite E; discriminate].
Qed.
Lemma run_branches ex bs : Forall (fun b => Forall stmt_runs (snd b)) bs -> (forall c b, In (Some c, b) bs -> fit false c) -> (forall c b st, In (c, b) bs -> In st b -> fit_stmt st) ->
  near_all (branches_vars bs) -> forall s, g_reg s = [] -> runs (gen_branches slot xr ex bs) s (after_stmt s).
Proof.
  induction 1 as [|[c b] bs H _ IH]; intros F1 F2 N s G; cbn [gen_branches branches_vars snd] in *; [apply run_nop; auto|].
  apply near_app in N as [N1 N]. apply near_app in N as [N2 N3].
  assert (R : forall s, g_reg s = [] -> runs (gen_branches slot xr ex bs) s (after_stmt s)) by (apply IH; auto; intros; [eapply F1|eapply F2]; [right; eassumption|right; eassumption|assumption]).
  assert (B : forall s, g_reg s = [] -> runs (gen_block slot xr b) s (after_stmt s)) by (intros; apply run_block; auto; intros st I; eapply F2; [left; reflexivity|exact I]).
  destruct c as [e|].
  - apply run_both; [apply run_top; auto; eapply F1; left; reflexivity|]. intros s1 G1. apply run_both; [|exact R].
    apply run_label; auto. intros l s2 G2. repeat (apply run_both; [apply run_some_ins || apply B || apply run_some_event; auto|intros ? ?]). apply run_some_event; auto.
  - apply run_both; [apply B; auto|exact R].
Qed.
Lemma run_stmt st : stmt_runs st.
Proof.
  apply stmt_ind'; unfold stmt_runs.
  - intros e s F N G. cbn [gen_stmt]. unfold gen_return. apply run_both; [|apply run_exit]. destruct e; [|apply run_nop; auto]. inversion F; subst. apply run_top; auto.
  - intros bs H s F N G. rewrite gen_stmt_if. rewrite vars_if in N. inversion F; subst. apply run_label; auto. intros l s1 G1. apply run_both; [|apply run_some_event]. apply run_branches; auto.
  - intros x t e s F N G. cbn [gen_stmt stmt_vars] in *. inversion F; subst. apply run_assign; auto; [constructor| |]; intros y I; apply N; [destruct I as [<-|[]]; left; auto|right; auto].
  - intros l e s F N G. cbn [gen_stmt stmt_vars] in *. inversion F; subst. apply near_app in N as [N1 N2]. apply run_assign; auto.
  - intros c b H s F N G. rewrite gen_stmt_while. rewrite vars_while in N. apply near_app in N as [N1 N2]. inversion F; subst.
    apply run_label; auto. intros l1 s1 G1. apply run_label; auto. intros l2 s2 G2.
    repeat (apply run_both; [first [apply run_some_ins | apply run_block | apply run_some_event | apply run_top]; auto|intros ? ?]). apply run_some_event; auto.
  - intros b H s F N G. rewrite gen_stmt_block. rewrite vars_block in N. inversion F; subst. apply run_block; auto.
  - intros e s F N G. cbn [gen_stmt stmt_vars] in *. inversion F; subst. apply run_top; auto.
Qed.

Variable fr : Z.
Hypothesis Hslot : forall x, slot x <= 8 * fr.
Definition calm (s : gst) : Prop := sinv fr s /\ g_reg s = [].
Definition stmt_needs (st : stmt) : Prop := forall s c s', calm s -> gen_stmt slot xr st s = Some (c, s') -> fit_stmt st /\ near_all (stmt_vars st).
Lemma calm_tidy s : calm s -> tidy s.
Proof. intros [[A B] C]. unfold tidy. rewrite A. exact B. Qed.
Lemma calm_expr e ta s c s' : calm s -> gen_expr slot e ta s = Some (c, s') -> fit false e /\ near_all (expr_vars e) /\ calm s'.
Proof.
  intros C H. pose proof (expr_keeps _ _ _ _ _ (calm_tidy _ C) H) as (A & B & D & _). pose proof (expr_need _ _ _ _ _ (calm_tidy _ C) H) as [F N].
  destruct C as [[C1 C2] C3]. rewrite C3 in F. split; auto. split; auto. split; [split|]; congruence.
Qed.
Lemma calm_stmt st s c s' : calm s -> gen_stmt slot xr st s = Some (c, s') -> calm s'.
Proof. intros [C D] H. split; [apply (gen_stmt_some slot xr fr Hslot st s c s' C H)|]. destruct (gen_stmt_eff _ _ _ _ _ _ H) as (A & B & _). congruence. Qed.
Lemma list_need l : Forall stmt_needs l -> forall s c s', calm s -> gen_list slot xr l s = Some (c, s') -> (forall st, In st l -> fit_stmt st) /\ near_all (list_vars l) /\ calm s'.
Proof.
  induction 1 as [|st l H _ IH]; intros s c s' C E; cbn [gen_list list_vars] in *.
  - ginv E. split; [intros ? []|]. split; auto. intros ? [].
  - apply seq_inv in E as (c1 & s1 & c2 & H1 & H2 & ->). pose proof (calm_stmt _ _ _ _ C H1) as C1. apply H in H1 as [F N]; auto. apply IH in H2 as (Fs & Ns & C2); auto.
    split; [intros st' [<-|I]; auto|]. split; auto. apply near_app; auto.
Qed.
Lemma block_need l : Forall stmt_needs l -> forall s c s', calm s -> gen_block slot xr l s = Some (c, s') -> (forall st, In st l -> fit_stmt st) /\ near_all (list_vars l) /\ calm s'.
Proof.
  intros H s c s' C E. assert (C' : calm s').
  { rewrite <- gen_stmt_block in E. eapply calm_stmt; eauto. }
  unfold gen_block in E. apply seq_inv in E as (c1 & s1 & c2 & H1 & E & ->). injection H1 as <- <-. apply seq_inv in E as (c3 & s3 & c4 & H3 & E & ->).
  apply (list_need l H) in H3 as (F & N & _); auto.
Qed.
Lemma branches_need ex bs : Forall (fun b => Forall stmt_needs (snd b)) bs -> forall s c s', calm s -> gen_branches slot xr ex bs s = Some (c, s') ->
  (forall c b, In (Some c, b) bs -> fit false c) /\ (forall c b st, In (c, b) bs -> In st b -> fit_stmt st) /\ near_all (branches_vars bs).
Proof.
  induction 1 as [|[cond b] bs H _ IH]; intros s c s' C E; cbn [gen_branches branches_vars snd] in *.
  - split; [intros ? ? []|]. split; [intros ? ? ? []|intros ? []].
  - destruct cond as [e|].
    + apply seq_inv in E as (c1 & s1 & c2 & H1 & E & ->). apply seq_inv in E as (c3 & s3 & c4 & H3 & E & ->). apply calm_expr in H1 as (F1 & N1 & C1); auto.
      ginv1 H3. match goal with K : gen_block _ _ _ ?x = Some _ |- _ => assert (C2 : calm x) by exact C1; apply block_need in K as (F2 & N2 & C3); [|assumption|exact C2] end.
      subst. apply IH in E as (F3 & F4 & N3); [|assumption].
      split; [intros c' b' [I|I]; [injection I as <- <-; auto|eauto]|]. split; [intros c' b' st [I|I] J; [injection I as <- <-; auto|eauto]|]. rewrite !near_app; auto.
    + apply seq_inv in E as (c1 & s1 & c2 & H1 & E & ->). apply block_need in H1 as (F2 & N2 & C3); auto. apply IH in E as (F3 & F4 & N3); [|assumption].
      split; [intros c' b' [I|I]; [discriminate|eauto]|]. split; [intros c' b' st [I|I] J; [injection I as <- <-; auto|eauto]|]. cbn. rewrite !near_app; auto.
Qed.
Lemma stmt_need st : stmt_needs st.
Proof.
  apply stmt_ind'; unfold stmt_needs.
  - intros e s c s' C E. cbn [gen_stmt] in E. unfold gen_return in E. apply seq_inv in E as (c1 & s1 & c2 & H1 & E & ->). destruct e as [e|]; cbn [stmt_vars]; [|split; [constructor|intros ? []]].
    apply calm_expr in H1 as (F & N & _); auto. split; auto. constructor; auto.
  - intros bs H s c s' C E. rewrite gen_stmt_if in E. rewrite vars_if. ginv1 E. match goal with K : gen_branches _ _ _ _ ?x = Some _ |- _ => assert (C2 : calm x) by exact C; apply branches_need in K as (F1 & F2 & N); [|assumption|exact C2] end.
    split; auto. constructor; auto.
  - intros x t e s c s' C E. cbn [gen_stmt stmt_vars] in *. unfold gen_assign in E. apply seq_inv in E as (c1 & s1 & c2 & H1 & E & ->). apply calm_expr in H1 as (F & N & _); auto.
    split; [constructor; auto|]. ginv1 E. cbn [gen_expr] in G. ginv1 G. intros y [<-|I]; auto.
  - intros l e s c s' C E. cbn [gen_stmt stmt_vars] in *. unfold gen_assign in E. apply seq_inv in E as (c1 & s1 & c2 & H1 & E & ->). apply calm_expr in H1 as (F & N & C1); auto.
    apply seq_inv in E as (c3 & s3 & c4 & H3 & E & ->). apply seq_inv in E as (c5 & s5 & c6 & H5 & E & ->). apply save_inv in H3 as [_ ->].
    assert (T : tidy (set_sp (fun x => x + 1) s1)) by (unfold tidy; cbn; eapply low_weaken; [|apply (calm_tidy _ C1)]; lia). destruct (expr_need l true _ _ _ T H5) as [F2 N2]. cbn in F2. destruct C1 as [_ C1]. rewrite C1 in F2.
    split; [constructor; auto|]. apply near_app; auto.
  - intros c b H s c0 s' C E. rewrite gen_stmt_while in E. rewrite vars_while. ginv1 E.
    match goal with K : gen_expr _ _ _ ?x = Some _ |- _ => assert (C2 : calm x) by exact C; apply calm_expr in K as (F1 & N1 & C3); [|exact C2] end.
    match goal with K : gen_block _ _ _ ?x = Some _ |- _ => apply block_need in K as (F2 & N2 & _); [|assumption|assumption] end.
    split; [constructor; auto|]. apply near_app; auto.
  - intros b H s c s' C E. rewrite gen_stmt_block in E. rewrite vars_block. apply block_need in E as (F & N & _); auto. split; auto. constructor; auto.
  - intros e s c s' C E. cbn [gen_stmt stmt_vars] in *. apply calm_expr in E as (F & N & _); auto. split; auto. constructor; auto.
Qed.
End Stmt.
End Slot.

(* -------------------------------------------------------------------------- functions *)

Lemma nodup_more x l : List.length (nodup Nat.eq_dec (x :: l)) = S (List.length (nodup Nat.eq_dec (filter (fun y => negb (Nat.eqb y x)) l))).
Proof.
  assert (A : Permutation (nodup Nat.eq_dec (x :: l)) (x :: nodup Nat.eq_dec (filter (fun y => negb (Nat.eqb y x)) l))).
  { apply NoDup_Permutation; [apply NoDup_nodup| |].
    - constructor; [|apply NoDup_nodup]. rewrite nodup_In, filter_In, Nat.eqb_refl. intros [_ H]; discriminate.
    - intros y. rewrite nodup_In. cbn. rewrite nodup_In, filter_In. destruct (Nat.eqb y x) eqn:E; [apply Nat.eqb_eq in E; subst; cbn; tauto|]. cbn. tauto. }
  apply Permutation_length in A. exact A.
Qed.
Lemma filter_filter {A} (p q : A -> bool) l : filter p (filter q l) = filter (fun x => q x && p x) l.
Proof. induction l as [|x l IH]; cbn; auto. destruct (q x); cbn; rewrite IH; auto. Qed.
Lemma temps_count ps vars : forall t l, 0 <= t ->
  fst (assign_temps ps vars t l) = t + Z.of_nat (List.length (nodup Nat.eq_dec (filter (fun x => negb (existsb (Nat.eqb x) ps) && (get_slot l x =? 0)) vars))).
Proof.
  induction vars as [|x vars IH]; intros t l T; cbn [assign_temps filter]; [cbn; lia|].
  destruct (existsb (Nat.eqb x) ps) eqn:E1; cbn [orb negb andb]; [apply IH; auto|].
  destruct (get_slot l x =? 0) eqn:E2; cbn [orb negb andb]; [|apply IH; auto]. rewrite nodup_more, IH by lia. rewrite filter_filter.
  rewrite (filter_ext (fun x0 => negb (existsb (Nat.eqb x0) ps) && (get_slot ((x, 8 * (t + 1)) :: l) x0 =? 0))
    (fun x0 => negb (existsb (Nat.eqb x0) ps) && (get_slot l x0 =? 0) && negb (Nat.eqb x0 x))); [lia|].
  intros y. cbn [get_slot]. destruct (Nat.eqb y x) eqn:E3; cbn [negb]; [|now rewrite andb_true_r].
  rewrite andb_false_r. replace (8 * (t + 1) =? 0) with false by (symmetry; apply Z.eqb_neq; lia). apply andb_false_r.
Qed.
Lemma temps_last ps vars : forall t l, 0 <= t -> let r := assign_temps ps vars t l in
  (fst r = t /\ snd r = l) \/ exists x, In x vars /\ existsb (Nat.eqb x) ps = false /\ get_slot (snd r) x = 8 * fst r.
Proof.
  induction vars as [|x vars IH]; intros t l T r; cbn [assign_temps] in r; [left; auto|].
  destruct (existsb (Nat.eqb x) ps) eqn:E1; cbn [orb] in r.
  - destruct (IH t l T) as [H|(y & I & H)]; [left; exact H|right; exists y; split; [right; auto|exact H]].
  - destruct (negb (get_slot l x =? 0)).
    + destruct (IH t l T) as [H|(y & I & H)]; [left; exact H|right; exists y; split; [right; auto|exact H]].
    + right. destruct (IH (t + 1) ((x, 8 * (t + 1)) :: l) ltac:(lia)) as [[H1 H2]|(y & I & H)]; [|exists y; split; [right; auto|exact H]].
      exists x. split; [left; auto|]. split; auto. unfold r. rewrite H1, H2. cbn. now rewrite Nat.eqb_refl.
Qed.
Lemma slots_count f : fst (fn_slots f) = Z.of_nat (List.length (f_params f)) + Z.of_nat (List.length (locals f)).
Proof.
  unfold fn_slots, locals. pose proof (temps_count (map fst (f_params f)) (body_vars (f_body f)) (Z.of_nat (List.length (f_params f))) [] ltac:(lia)) as H.
  destruct (assign_temps _ _ _ _) as [t l]. cbn [fst] in *. rewrite H. do 4 f_equal. apply filter_ext. intros x. cbn. now rewrite andb_true_r.
Qed.
Lemma not_param ps x : forall i, existsb (Nat.eqb x) (map fst ps) = false -> get_slot (param_slots i ps) x = 0.
Proof. induction ps as [|[y t] ps IH]; intros i H; cbn in *; auto. apply orb_false_iff in H as [-> H]. auto. Qed.
Lemma slots_near f : (List.length (f_params f) <= 6)%nat -> near_all (fn_slot f) (body_vars (f_body f)) <-> Z.of_nat (List.length (f_params f)) + Z.of_nat (List.length (locals f)) <= 4096.
Proof.
  intros L. rewrite <- slots_count. split.
  - intros N. unfold fn_slot, fn_slots in *. pose proof (temps_last (map fst (f_params f)) (body_vars (f_body f)) (Z.of_nat (List.length (f_params f))) [] ltac:(lia)) as H.
    destruct (assign_temps _ _ _ _) as [t l]. cbn [fst snd] in *. destruct H as [[H _]|(x & I & P & H)]; [lia|].
    specialize (N x I). unfold near in N.
    rewrite get_slot_app in N; [|intros y z Iy; apply (proj1 (param_slots_ok (f_params f) 0 ltac:(lia))) in Iy; lia].
    rewrite (not_param _ _ _ P), Z.eqb_refl, H in N. lia.
  - intros H x I. unfold near. pose proof (fn_slots_ok f) as K. unfold fn_slot. destruct (fn_slots f) as [t l]. cbn [fst snd] in *.
    destruct K as (K1 & K2 & (K3 & _) & K4 & _). specialize (K4 x (or_intror I)). apply get_slot_in in K4. apply K3 in K4. lia.
Qed.

Lemma params_run ps : forall i s, (i + List.length ps <= 6)%nat -> g_reg s = [] -> runs (gen_params i ps) s (after_stmt s).
Proof.
  induction ps as [|[x t] ps IH]; intros i s L G; cbn [gen_params List.length] in *; [apply run_nop; auto|].
  destruct (reg_there i ltac:(lia)) as (r & E). apply run_both.
  - unfold with_reg. rewrite E. unfold displace. destruct (_ || _) eqn:D; [lia|]. apply run_some_ins; auto.
  - intros s1 G1. apply run_both; [|intros; apply IH; auto; lia]. unfold add_root. destruct (is_pointer t); (eapply run_this; [reflexivity|split; auto]).
Qed.
Lemma params_need ps : forall i s c s', gen_params i ps s = Some (c, s') -> (ps = [] \/ i + List.length ps <= 6)%nat.
Proof.
  induction ps as [|[x t] ps IH]; intros i s c s' H; cbn [gen_params List.length] in *; auto. right.
  apply seq_inv in H as (c1 & s1 & c2 & H1 & H & ->). apply seq_inv in H as (c3 & s3 & c4 & H3 & H & ->). apply with_reg_inv in H1 as (r & E & _).
  assert (i < 6)%nat by (change 6%nat with (List.length arg_regs); apply nth_error_Some; congruence). apply IH in H as [->|H]; cbn; lia.
Qed.
Lemma fields_run n : forall i off s, (i + n <= 6)%nat -> 0 <= off <= 8 * (Z.of_nat i + 1) -> g_reg s = [] -> runs (gen_fields i off n) s (after_stmt s).
Proof.
  induction n as [|n IH]; intros i off s L O G; cbn [gen_fields]; [apply run_nop; auto|].
  apply run_both; [unfold displace; destruct (_ || _) eqn:D; [lia|apply run_some_ins; auto]|]. intros s1 G1.
  apply run_both; [unfold displace; destruct (_ || _) eqn:D; [lia|apply run_some_ins; auto]|]. intros s2 G2. apply IH; auto; lia.
Qed.
Lemma constructor_run alloc n tag id descr s : (n <= 6)%nat -> g_reg s = [] -> runs (gen_constructor alloc n tag id descr) s (after_stmt s).
Proof.
  intros L G. unfold gen_constructor. apply run_both; [apply run_some_ins; auto|]. intros s1 G1.
  apply run_both; [unfold runs, string_lit; destruct (find_lit _ _ _); (eexists _, _; split; [reflexivity|split; auto])|]. intros s2 G2.
  apply run_both; [apply run_some_ins; auto|]. intros s3 G3. apply run_both; [apply run_some_ins; auto|]. intros s4 G4.
  apply run_both; [unfold runs, gc_map; destruct (g_roots s4); (eexists _, _; split; [reflexivity|split; auto])|]. intros s5 G5.
  apply run_both; [|apply run_exit]. destruct tag as [z|]; [|apply fields_run; auto; lia].
  apply run_both; [apply run_some_ins; auto|]. intros. apply fields_run; auto; lia.
Qed.

Lemma gen_fn_eq alloc f : gen_fn alloc f = seq reset_fn (seq (gen_entry (f_name f) (fst (fn_slots f))) (seq (inc_sp (fn_frame f)) (seq (gen_params 0 (f_params f)) (seq
  (match f_body f with
   | BCons tag id descr => gen_constructor alloc (List.length (f_params f)) tag id descr
   | BBlock l => seq (gen_block (fn_slot f) (f_extret f) l) (if kind_eqb (f_ret f) TNothing && negb (return_last l) then gen_exit (f_extret f) else nop)
   | BExpr e => gen_return (fn_slot f) (f_extret f) (Some e)
   end) gen_maps)))).
Proof. unfold gen_fn, fn_frame, fn_slot. destruct (fn_slots f) as [t l]. reflexivity. Qed.

Theorem gen_fn_runs alloc f s : (exists c s', gen_fn alloc f s = Some (c, s')) <-> has_code f.
Proof.
  rewrite gen_fn_eq. split.
  - intros (c & s' & H). apply seq_inv in H as (c1 & s1 & c2 & H1 & H & ->). injection H1 as <- <-. apply seq_inv in H as (c3 & s3 & c4 & H3 & H & ->). injection H3 as <- <-.
    apply seq_inv in H as (c5 & s5 & c6 & H5 & H & ->). injection H5 as <- <-. apply seq_inv in H as (c7 & s7 & c8 & H7 & H & ->). apply seq_inv in H as (c9 & s9 & c10 & H9 & _ & ->).
    assert (L : (List.length (f_params f) <= 6)%nat) by (apply params_need in H7 as [->|H7]; cbn in *; lia).
    assert (C : calm (fn_frame f) s7).
    { pose proof (gen_params_does _ _ _ _ _ H7) as (_ & _ & R & P). cbn in R, P. split; [split; [exact P|rewrite R; apply fn_params_low]|].
      clear - H7. assert (K : forall ps i s c s', gen_params i ps s = Some (c, s') -> g_reg s' = g_reg s).
      { clear. induction ps as [|[x t] ps IH]; intros i s c s' H; cbn [gen_params] in H; [ginv H; auto|]. apply seq_inv in H as (c1 & s1 & c2 & H1 & H & ->).
        apply seq_inv in H as (c3 & s3 & c4 & H3 & H & ->). ginv1 H1. subst. apply IH in H. rewrite H. unfold add_root in H3. destruct (is_pointer t); injection H3 as <- <-; reflexivity. }
      apply K in H7. exact H7. }
    assert (Hs : forall x, fn_slot f x <= 8 * fn_frame f) by (intros x; apply fn_slot_bound).
    split; auto. rewrite <- (slots_near f L). destruct (f_body f) as [l|e|tag id descr]; cbn [fit_body body_vars].
    + apply seq_inv in H9 as (c11 & s11 & c12 & H11 & _ & ->). eapply block_need in H11 as (F & N & _); [split; auto|exact Hs| |exact C].
      apply Forall_forall. intros st _. apply stmt_need; exact Hs.
    + unfold gen_return in H9. apply seq_inv in H9 as (c11 & s11 & c12 & H11 & _ & ->). apply (calm_expr _ _ _ _ _ _ _ C) in H11 as (F & N & _). auto.
    + split; auto. intros x [].
  - intros (L & F & N). rewrite <- (slots_near f L) in N.
    assert (R : forall g s, (forall s, g_reg s = [] -> runs g s (after_stmt s)) -> runs (seq reset_fn g) s (fun _ => True)).
    { intros g s0 H. eapply run_seq; [eapply run_this; [reflexivity|exact (eq_refl _)]|]. intros s1 <-. eapply run_weak; [apply H; reflexivity|auto]. }
    assert (X : runs (seq reset_fn (seq (gen_entry (f_name f) (fst (fn_slots f))) (seq (inc_sp (fn_frame f)) (seq (gen_params 0 (f_params f)) (seq
      (match f_body f with
       | BCons tag id descr => gen_constructor alloc (List.length (f_params f)) tag id descr
       | BBlock l => seq (gen_block (fn_slot f) (f_extret f) l) (if kind_eqb (f_ret f) TNothing && negb (return_last l) then gen_exit (f_extret f) else nop)
       | BExpr e => gen_return (fn_slot f) (f_extret f) (Some e)
       end) gen_maps))))) s (fun _ => True)).
    { apply R. intros s1 G1. apply run_both; [eapply run_this; [reflexivity|apply after_refl; auto]|]. intros s2 G2. apply run_both; [eapply run_this; [reflexivity|split; auto]|]. intros s3 G3.
      apply run_both; [apply params_run; auto|]. intros s4 G4. apply run_both; [|intros s5 G5; eapply run_this; [reflexivity|apply after_refl; auto]].
      destruct (f_body f) as [l|e|tag id descr]; cbn [fit_body body_vars] in *.
      - apply run_both; [apply run_block; auto; apply Forall_forall; intros st _; apply run_stmt|]. intros s5 G5. destruct (_ && _); [apply run_exit; auto|apply run_nop; auto].
      - unfold gen_return. apply run_both; [apply run_top; auto|]. apply run_exit.
      - apply constructor_run; auto. }
    destruct X as (c & s' & E & _). eauto.
Qed.
Theorem gen_fns_run alloc fs : forall s, (exists c s', gen_fns alloc fs s = Some (c, s')) <-> Forall has_code fs.
Proof.
  induction fs as [|f fs IH]; intros s; cbn [gen_fns].
  - split; [constructor|]. intros _. exists [], s. reflexivity.
  - split.
    + intros (c & s' & H). apply seq_inv in H as (c1 & s1 & c2 & H1 & H & ->). constructor; [apply (gen_fn_runs alloc f s); eauto|apply (IH s1); eauto].
    + intros H. inversion H as [|? ? A B]; subst. apply (gen_fn_runs alloc f s) in A as (c & s1 & E). apply (IH s1) in B as (c2 & s2 & E2). exists (c ++ c2), s2. unfold seq. now rewrite E, E2.
Qed.
