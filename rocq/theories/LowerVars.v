(** The variables of lowered statements. *)
From Coq Require Import ZArith List Bool String Lia.
From Verif Require Import Ints X86 GenModel GenSpec GenFuel LowerModel LowerSpec LowerFin LowerRet.
Import ListNotations.
Open Scope Z_scope.

Local Ltac split_or := repeat match goal with H : _ || _ = false |- _ => apply orb_false_iff in H; destruct H end.

Section Vars.
Variable K : consts.
Variable x : nat.

Lemma uses_any_app l1 l2 : uses_any x (l1 ++ l2) = uses_any x l1 || uses_any x l2.
Proof. induction l1; cbn; [reflexivity|]. rewrite IHl1. apply orb_assoc. Qed.
Lemma assigns_any_app l1 l2 : assigns_any x (l1 ++ l2) = assigns_any x l1 || assigns_any x l2.
Proof. induction l1; cbn; [reflexivity|]. rewrite IHl1. apply orb_assoc. Qed.

Lemma neq_eqb y : (x < y)%nat -> Nat.eqb x y = false.
Proof. intros H. apply Nat.eqb_neq. lia. Qed.

Lemma case_vars_uses tmp t vars : (x < tmp)%nat -> existsb (fun v => Nat.eqb x (fst v)) vars = false ->
  forall i l, case_vars K tmp t i vars = Some l -> uses_any x l = false.
Proof.
  intros L. induction vars as [|[y u] vars IH]; intros O i l E; cbn in E, O.
  - inversion E; reflexivity.
  - apply orb_false_iff in O as [O1 O2]. destruct (enum_field i); [|discriminate].
    destruct (case_vars K tmp t (S i) vars) as [l1|] eqn:E1; [|discriminate]. inversion E; subst.
    cbn. rewrite (IH O2 _ _ E1), O1, (neq_eqb _ L). reflexivity.
Qed.
Lemma case_vars_assigns tmp t vars : existsb (fun v => Nat.eqb x (fst v)) vars = false ->
  forall i l, case_vars K tmp t i vars = Some l -> assigns_any x l = false.
Proof.
  induction vars as [|[y u] vars IH]; intros O i l E; cbn in E, O.
  - inversion E; reflexivity.
  - apply orb_false_iff in O as [O1 O2]. destruct (enum_field i); [|discriminate].
    destruct (case_vars K tmp t (S i) vars) as [l1|] eqn:E1; [|discriminate]. inversion E; subst.
    cbn. rewrite (IH O2 _ _ E1), O1. reflexivity.
Qed.

Definition fresh (s : xstmt) : Prop := forall k s' k', (x < k)%nat -> lower_with K [] k s = Some (s', k') ->
  (k <= k')%nat /\ (occurs x s = false -> uses x s' = false) /\ (assigned x s = false -> assigns x s' = false).

Lemma fresh_list l : Forall fresh l -> forall k p k', (x < k)%nat -> lower_list K [] k l = Some (p, k') ->
  (k <= k')%nat /\ (occurs_any x l = false -> uses_any x p = false) /\ (assigned_any x l = false -> assigns_any x p = false).
Proof.
  induction 1 as [|s l Hs Hl IH]; intros k p k' L E; cbn [lower_list] in E.
  - inversion E; subst. auto.
  - destruct (lower_with K [] k s) as [[s' k1]|] eqn:E1; [|discriminate].
    destruct (lower_list K [] k1 l) as [[l' k2]|] eqn:E2; [|discriminate]. inversion E; subst.
    destruct (Hs _ _ _ L E1) as (L1 & A1 & B1). assert (Lk : (x < k1)%nat) by lia. destruct (IH _ _ _ Lk E2) as (L2 & A2 & B2).
    split; [lia|]. cbn. split; intros O; apply orb_false_iff in O as [O1 O2]; apply orb_false_iff; auto.
Qed.

Lemma lower_fresh : forall s, fresh s.
Proof.
  induction s using xstmt_ind'; intros k s' k' L E; cbn [lower_with] in E.
  - inversion E; subst. split; [lia|]. destruct e; auto.
  - fold (lower_list K []) in E. fold (lower_chain K []) in E.
    destruct (lower_chain K [] k bs) as [[bs' k1]|] eqn:C; [|discriminate]. inversion E; subst. clear E.
    cbn [occurs assigned uses assigns]. fold (occurs_any x) (occurs_chain x) (assigned_any x) (assigned_chain x) (uses_any x) (uses_branches x) (assigns_any x) (assigns_branches x).
    revert k bs' k' L C. induction bs as [|[c b] bs IH]; intros k bs' k' L C; cbn [lower_chain] in C.
    + inversion C; subst. auto.
    + inversion H as [|? ? Hb Hr]; subst. cbn [snd] in Hb.
      destruct (lower_list K [] k b) as [[b' k1]|] eqn:Eb; [|discriminate].
      destruct (lower_chain K [] k1 bs) as [[r' k2]|] eqn:Er; [|discriminate]. inversion C; subst.
      destruct (fresh_list _ Hb _ _ _ L Eb) as (L1 & A1 & B1). assert (Lk : (x < k1)%nat) by lia. destruct (IH Hr _ _ _ Lk Er) as (L2 & A2 & B2).
      split; [lia|]. cbn. split; intros O; split_or.
      * rewrite H0, A1, A2 by assumption. reflexivity.
      * rewrite B1, B2 by assumption. reflexivity.
  - inversion E; subst. auto.
  - inversion E; subst. split; [lia|]. cbn. destruct l; auto.
  - fold (lower_list K []) in E.
    destruct (lower_list K [] k b) as [[b' k1]|] eqn:Eb; [|discriminate]. inversion E; subst.
    destruct (fresh_list _ H _ _ _ L Eb) as (L1 & A1 & B1). split; [lia|].
    cbn [occurs assigned uses assigns]. fold (occurs_any x) (assigned_any x) (uses_any x) (assigns_any x).
    split; [|exact B1]. intros O; split_or. rewrite H0, A1 by assumption. reflexivity.
  - inversion E; subst. auto.
  - fold (lower_list K []) in E.
    destruct (lower_list K [] k body) as [[b' k1]|] eqn:Eb; [|discriminate]. inversion E; subst.
    destruct (fresh_list _ H _ _ _ L Eb) as (L1 & A1 & B1). split; [lia|].
    cbn [occurs assigned uses assigns]. fold (occurs_any x) (assigned_any x) (uses_any x) (assigns_any x).
    split; intros O; split_or; unfold lower_range, inc, plus, int_lit;
      destruct z; cbn [uses_any assigns_any uses assigns reads]; fold (uses_any x) (assigns_any x); rewrite ?uses_any_app, ?assigns_any_app; cbn [uses_any assigns_any uses assigns reads];
      repeat match goal with O : _ = false |- _ => rewrite O end; rewrite ?A1, ?B1 by assumption; reflexivity.
  - fold (lower_list K []) in E.
    destruct (lower_list K [] (S (S k)) body) as [[b' k1]|] eqn:Eb; [|discriminate]. inversion E; subst.
    assert (Lk : (x < S (S k))%nat) by lia. destruct (fresh_list _ H _ _ _ Lk Eb) as (L1 & A1 & B1). split; [lia|].
    assert (Q1 := neq_eqb k L). assert (Q2 : Nat.eqb x (S k) = false) by (apply neq_eqb; lia).
    cbn [occurs assigned uses assigns]. fold (occurs_any x) (assigned_any x) (uses_any x) (assigns_any x).
    split; intros O; split_or; unfold lower_array, inc, plus, int_lit, length_of.
    + assert (G : forall arr elem, reads x arr = false -> uses_any x
        [SDas (S k) (c_int K) (ELitInt (c_int K) 0); SWhile (ECmp (c_bool K) Lt (EVar (c_int K) (S k)) (EDot (c_int K) arr (EOff (c_int K) 0)))
          (SAs (EVar t x0) (EIndex elem arr (EVar (c_int K) (S k))) :: b' ++ [SAs (EVar (c_int K) (S k)) (EArith (typ (EVar (c_int K) (S k))) Add (EVar (c_int K) (S k)) (ELitInt (c_int K) 1))])] = false).
      { intros arr elem Ra. cbn [uses_any uses reads]. fold (uses_any x). cbn [uses_any uses reads]. rewrite uses_any_app. cbn [uses_any uses reads].
        rewrite Q2, Ra, H0, A1 by assumption. reflexivity. }
      destruct a; try (apply G; assumption).
      refine (proj2 (orb_false_iff (uses x (SDas k (c_int_array K) a)) _) (conj _ (G (EVar (c_int_array K) k) (c_int K) Q1))).
      match goal with O : reads x (EArrayLit _ _) = false |- _ => cbn [reads] in O; cbn [uses]; rewrite O, Q1 end. reflexivity.
    + assert (G : forall arr elem, assigns_any x
        [SDas (S k) (c_int K) (ELitInt (c_int K) 0); SWhile (ECmp (c_bool K) Lt (EVar (c_int K) (S k)) (EDot (c_int K) arr (EOff (c_int K) 0)))
          (SAs (EVar t x0) (EIndex elem arr (EVar (c_int K) (S k))) :: b' ++ [SAs (EVar (c_int K) (S k)) (EArith (typ (EVar (c_int K) (S k))) Add (EVar (c_int K) (S k)) (ELitInt (c_int K) 1))])] = false).
      { intros arr elem. cbn [assigns_any assigns]. fold (assigns_any x). cbn [assigns_any assigns]. rewrite assigns_any_app. cbn [assigns_any assigns].
        rewrite Q2, H0, B1 by assumption. reflexivity. }
      destruct a; try apply G.
      exact (proj2 (orb_false_iff (assigns x (SDas k (c_int_array K) a)) _) (conj Q1 (G (EVar (c_int_array K) k) (c_int K)))).
  - fold (lower_list K []) in E. fold (lower_cases K []) in E.
    destruct (lower_cases K [] (S k) cs) as [[cs' k1]|] eqn:C; [|discriminate].
    destruct (lower_match K [] k e cs') as [st|] eqn:M; [|discriminate]. inversion E; subst. clear E.
    cbn [occurs assigned]. fold (occurs_any x) (occurs_cases x) (assigned_any x) (assigned_cases x).
    assert (Q1 := neq_eqb k L).
    assert (G : (S k <= k')%nat /\ forall t bs, case_branches K k t cs' = Some bs ->
      (occurs_cases x cs = false -> uses_branches x bs = false) /\ (assigned_cases x cs = false -> assigns_branches x bs = false)).
    { clear M. assert (Lk : (x < S k)%nat) by lia. revert cs' C Lk. generalize (S k). induction cs as [|[[tag vars] b] cs IH]; intros k2 cs' C Lk; cbn [lower_cases] in C.
      - inversion C; subst. split; [lia|]. intros t bs B. cbn in B. inversion B; subst. auto.
      - inversion H as [|? ? Hb Hr]; subst. cbn [snd] in Hb.
        destruct (lower_list K [] k2 b) as [[b' k3]|] eqn:Eb; [|discriminate].
        destruct (lower_cases K [] k3 cs) as [[r' k4]|] eqn:Er; [|discriminate]. inversion C; subst.
        destruct (fresh_list _ Hb _ _ _ Lk Eb) as (L1 & A1 & B1). assert (Lk3 : (x < k3)%nat) by lia. destruct (IH Hr _ _ Er Lk3) as (L2 & G2).
        split; [lia|]. intros t bs B. cbn [case_branches] in B.
        destruct (case_vars K k t 0 vars) as [vs|] eqn:V; [|discriminate].
        destruct (case_branches K k t r') as [bs1|] eqn:B2; [|discriminate]. inversion B; subst. destruct (G2 _ _ B2) as [G3 G4].
        cbn. rewrite uses_any_app, assigns_any_app. split; intros O; split_or.
        + rewrite (case_vars_uses _ _ _ L H0 _ _ V), Q1, A1, G3 by assumption. reflexivity.
        + rewrite (case_vars_assigns _ _ _ H0 _ _ V), B1, G4 by assumption. reflexivity. }
    destruct G as [L1 G]. split; [lia|]. unfold lower_match in M.
    destruct (case_branches K k (typ e) cs') as [bs|] eqn:B; [|discriminate]. destruct (G _ _ B) as [G1 G2].
    rewrite app_nil_r in M.
    assert (U : uses x (SBlock [SDas k (typ e) e; SIf bs]) = (Nat.eqb x k || reads x e) || (uses_branches x bs || false)) by reflexivity.
    assert (V : assigns x (SBlock [SDas k (typ e) e; SIf bs]) = Nat.eqb x k || (assigns_branches x bs || false)) by reflexivity.
    rewrite Q1 in U, V. cbn [orb] in U, V. rewrite orb_false_r in U, V.
    destruct bs as [|q bs]; inversion M; subst.
    + cbn [uses assigns uses_any assigns_any]. rewrite Q1. split; [|auto]. intros O; split_or. cbn [orb]. rewrite H0. reflexivity.
    + rewrite U, V. split; intros O; split_or; [rewrite H0, G1 by assumption|rewrite G2 by assumption]; reflexivity.
Qed.

Lemma body_fresh l k p k' : (x < k)%nat -> lower_body K k l = Some (p, k') ->
  (k <= k')%nat /\ (occurs_any x l = false -> uses_any x p = false) /\ (assigned_any x l = false -> assigns_any x p = false).
Proof. intros L E. apply fresh_list; [apply Forall_forall; intros; apply lower_fresh|exact L|exact E]. Qed.
End Vars.
