(** Loops whose bound is calculated from variables the body does not assign. *)
From Coq Require Import ZArith List Bool String Lia.
From Verif Require Import Ints X86 GenModel GenSpec GenFuel LowerModel LowerSpec LowerFin LowerVars LowerLoop.
Import ListNotations.
Open Scope Z_scope.

Section Calc.
Variable heap : Z -> bool.
Variable lit : list Z -> Z.
Variable fun_addr : string -> Z.
Variable fun_at : Z -> option string.
Variable extern abstract : string -> list (option Z) -> memory -> option (option Z * memory).
Variable alloc : string.
Variable prog : list fundef.
Notation EVAL := (eval heap lit fun_addr fun_at extern abstract alloc prog).
Notation finE r h e := (fin (fun n d => EVAL n d r h e)).
Notation finS r h s := (fin (fun n d => exec_stmt heap lit fun_addr fun_at extern abstract alloc prog n d r h s)).
Notation finL r h l := (fin (fun n d => exec_list heap lit fun_addr fun_at extern abstract alloc prog n d r h l)).

Lemma calc_eval r r' n d : forall e h h' v h1, calc e = true -> (forall y, reads y e = true -> r' y = r y) ->
  EVAL n d r h e = Val (v, h1) -> h1 = h /\ EVAL n d r' h' e = Val (v, h').
Proof.
  assert (Ne : forall B (a : res (option Z * memory)) (f : Z -> memory -> res B) v, need a f = Val v -> exists y h, a = Val (Some y, h) /\ f y h = Val v).
  { intros B [[[y|] h]| | | |] f v E; cbn in E; try discriminate. eauto. }
  induction n as [|n IH]; intros e h h' v h1 C Rd E; [discriminate|].
  rewrite eval_step in E. rewrite eval_step. cbv zeta in E |- *.
  Local Ltac step_need Ne IH h' Rd :=
    match goal with
    | E : need (eval _ _ _ _ _ _ _ _ _ _ _ _ ?e) _ = Val _ |- _ =>
        let y := fresh "y" in let h0 := fresh "h0" in let E1 := fresh "E1" in
        let E2 := fresh in destruct (Ne _ _ _ _ E) as [y [h0 [E1 E2]]]; clear E; rename E2 into E; cbv beta in E;
        let F1 := fresh "F1" in
        destruct (IH e _ h' _ _ ltac:(assumption) ltac:(let z := fresh in let Hz := fresh in intros z Hz; apply Rd; cbn [reads]; rewrite Hz, ?orb_true_r; reflexivity) E1) as [-> F1];
        rewrite F1; cbn [need bind]
    end.
  destruct e; cbn [calc] in C; try discriminate C; rewrite ?andb_true_iff in C;
    repeat match goal with H : _ /\ _ |- _ => destruct H end;
    repeat step_need Ne IH h' Rd.
  - inversion E; subst; auto.
  - inversion E; subst; auto.
  - destruct (as_bool y), (as_bool y0); inversion E; subst; auto.
  - destruct (sem_arith op (ival y) (ival y0)); inversion E; subst; auto.
  - destruct (as_bool y); inversion E; subst; auto.
  - inversion E; subst; auto.
  - inversion E; subst; auto.
  - inversion E; subst; auto.
  - inversion E; subst; auto.
  - rewrite Rd by (cbn; apply Nat.eqb_refl). destruct (r x); inversion E; subst; auto.
  - destruct (as_bool y) as [[|]|]; [..|discriminate]; (eapply IH; [assumption| |exact E]); intros z Hz; apply Rd; cbn [reads]; rewrite ?orb_true_iff; tauto.
Qed.

Lemma finL_keeps' x r h l o r1 h1 : assigns_any x l = false -> finL r h l (Val (o, r1, h1)) -> r1 x = r x.
Proof. intros A [_ [n [d E]]]. exact (proj1 (proj2 (exec_keeps heap lit fun_addr fun_at extern abstract alloc prog x n d r h)) l o r1 h1 A E). Qed.

Lemma calc_stable K x b w body body' k k' r h : calc b = true -> reads x b = false ->
  (forall y, reads y b = true -> (y < k)%nat /\ assigned_any y body = false) ->
  lower_body K k body = Some (body', k') -> finE r h b (Val (Some w, h)) ->
  stable heap lit fun_addr fun_at extern abstract alloc prog x b w body' (fun r' _ => forall y, reads y b = true -> r' y = r y).
Proof.
  intros C Rx As L [_ [n [d F]]]. split; [|split].
  - intros r' h' Ag. split; [discriminate|]. exists n, d. exact (proj2 (calc_eval r r' n d b h h' _ _ C Ag F)).
  - intros r' h' v Ag y Hy. unfold env_set. destruct (Nat.eqb_spec x y) as [->|]; [congruence|]. exact (Ag y Hy).
  - intros r' h' r1 h1 Ag F1 y Hy. destruct (As y Hy) as [Lt A]. rewrite <- (Ag y Hy).
    apply (finL_keeps' y _ _ _ _ _ _ (proj2 (proj2 (body_fresh K y _ _ _ _ Lt L)) A) F1).
Qed.

Lemma range_calc K x t a b body body' k k' st r h a0 b0 h1 :
  lower K k (XRange x t a b false body) = Some (st, k') -> lower_body K k body = Some (body', k') ->
  (x < k)%nat -> assigned_any x body = false ->
  finE r h a (Val (Some (wint a0), h1)) -> is_int a0 -> is_int b0 ->
  calc b = true -> reads x b = false -> (forall y, reads y b = true -> (y < k)%nat /\ assigned_any y body = false) ->
  finE r h1 b (Val (Some (wint b0), h1)) ->
  same_results [x] (finS r h st) (each x (fun r h R => finL r h body' R) (upto a0 b0) r h1).
Proof.
  intros L Lb Lx As Ea Ia Ib C Rx Rb Eb.
  apply (range_up heap lit fun_addr fun_at extern abstract alloc prog K x t a b body body' k k' st r h a0 b0 h1 _ L Lb Lx As Ea Ia Ib
    (calc_stable K x b _ body body' k k' r h1 C Rx Rb Lb Eb)). reflexivity.
Qed.

Lemma variable_array K x t u y body body' k k' st r h p len :
  lower K k (XArray x t (EVar u y) body) = Some (st, k') -> lower_body K (S (S k)) body = Some (body', k') ->
  occurs (S k) (XArray x t (EVar u y) body) = false -> y <> x -> (y < k)%nat -> assigned_any y body = false ->
  r y = Some p -> load h p = wint len ->
  in_heap_array heap p len -> keeps_length heap lit fun_addr fun_at extern abstract alloc prog p len body' ->
  same_results [S k] (finS r h st) (each_element x p (fun r h R => finL r h body' R) (upto 0 len) r h).
Proof.
  intros L Lb Oc Nx Ly As Ry Len Hp Kl.
  apply (array_expr heap lit fun_addr fun_at extern abstract alloc prog K x t (EVar u y) body body' k k' st r h p len
    (fun r h => r y = Some p /\ load h p = wint len) L Lb); auto.
  - discriminate.
  - split; [|split].
    + intros r' h' [A B]. split; [apply finE_var, A|exact B].
    + intros r' h' v z Hz [A B]. split; [|exact B]. unfold env_set. destruct (Nat.eqb_spec z y) as [->|]; [|exact A].
      destruct Hz as [Hz|Hz]; [congruence|]. cbn in Hz. rewrite Nat.eqb_refl in Hz. discriminate.
    + intros r' h' r1 h1 [A B] F. split; [|exact (Kl _ _ _ _ B F)]. rewrite <- A.
      apply (finL_keeps' y _ _ _ _ _ _ (proj2 (proj2 (body_fresh K y _ (S (S k)) _ _ (Nat.lt_trans _ _ _ Ly (Nat.lt_trans _ _ _ (Nat.lt_succ_diag_r k) (Nat.lt_succ_diag_r _))) Lb)) As) F).
Qed.
End Calc.
